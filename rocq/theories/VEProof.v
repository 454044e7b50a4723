(** Variable elimination computes the posterior: naive_marginals and
    bucket_marginals. *)
From Verif Require Import Base BaseFacts NDArray NDArrayFacts SumCalc Factor FactorFacts Exact Spec SpecFacts.

Section VE.
Context {SO : SetOrder}.
Variable b : bn.
Hypothesis WB : wf_bn b.
Notation dom := (values_of b).
Notation card := (card dom).
Variable ev : evidence.
Hypothesis EV : ev_ok b ev.

Lemma wf_single v (l : list Qc) : length l = length (dom v) ->
  wf_factor dom (mkF (mkArr [length (dom v)] l) [v] [(v, dom v)]).
Proof.
  intros L. split; cbn.
  - repeat constructor; tauto.
  - reflexivity.
  - unfold wfa; cbn. lia.
  - repeat constructor; tauto.
  - tauto.
  - intros w [<-|[]]. rewrite String.eqb_refl; reflexivity.
Qed.

Lemma feval_single v (l : list Qc) a :
  feval (mkF (mkArr [length (dom v)] l) [v] [(v, dom v)]) a = nth (a v) l 0%Qc.
Proof. unfold feval, aget; cbn. f_equal. lia. Qed.

Lemma as_evidence_spec n e : In n (bnodes b) -> dget (dn_name n) ev = Some e ->
  exists ef, as_evidence (dn_name n) (dn_values n) e None = Ok ef /\ wf_factor dom ef /\
    vorder ef = [dn_name n] /\ forall a, inrange card [dn_name n] a -> feval ef a = ievw ev n a.
Proof.
  intros H E. unfold as_evidence, ievw. rewrite E.
  assert (V := values_of_node b WB n H). assert (In_n : In (dn_name n) (bnames b)) by apply in_map, H.
  destruct e as [x|q].
  - assert (Hx := ev_hard b ev _ x EV E In_n). rewrite V in Hx.
    destruct (index_of_In x _ Hx) as [i Ei]. rewrite Ei. eexists; split; [reflexivity|].
    rewrite <- V. split; [apply wf_single; rewrite list_set_length, repeat_length; reflexivity|].
    split; [reflexivity|]. intros a R. rewrite feval_single, V.
    unfold idx. rewrite Ei. apply index_of_Some in Ei as [_ Li].
    destruct (Nat.eqb_spec (a (dn_name n)) i) as [->|N].
    + apply list_set_nth_eq. rewrite repeat_length; exact Li.
    + rewrite list_set_nth_neq by congruence. apply nth_repeat.
  - destruct (ev_soft b ev _ q EV E In_n) as [L _]. rewrite V in L. rewrite L, Nat.eqb_refl.
    eexists; split; [reflexivity|]. rewrite <- V in *. split; [apply wf_single; exact L|].
    split; [reflexivity|]. intros a R. apply feval_single.
Qed.

(** ** naive_marginals *)

Definition nw (n : dnode) (a : asg) : Qc := (feval (from_node n) a * ievw ev n a)%Qc.

Lemma naive_step_spec f n : In n (bnodes b) -> wf_factor dom f ->
  exists h, naive_step b ev f (dn_name n) = Ok h /\ wf_factor dom h /\
    (forall v, In v (vorder h) <-> In v (vorder f) \/ In v (vorder (from_node n))) /\
    (forall a, inrange card (vorder h) a -> feval h a = (feval f a * nw n a)%Qc).
Proof.
  intros H W. unfold naive_step. rewrite (get_node_ok b WB n H). cbn [rbind].
  destruct (fcombine_spec dom Qcmult f (from_node n) W (wf_from_node b WB n H))
    as (h1 & E1 & W1 & _ & O1 & V1).
  unfold fmul. rewrite E1. cbn [rbind]. unfold nw, ievw.
  destruct (dget (dn_name n) ev) as [e|] eqn:E.
  - destruct (as_evidence_spec n e H E) as (ef & Ee & We & Oe & Ve).
    rewrite Ee. cbn [rbind].
    destruct (fcombine_spec dom Qcmult h1 ef W1 We) as (h & Eh & Wh & _ & Oh & Vh).
    exists h. split; [exact Eh|]. split; [exact Wh|].
    assert (OO : forall v, In v (vorder h) <-> In v (vorder f) \/ In v (vorder (from_node n))).
    { intros v. rewrite Oh, O1, Oe. cbn. intuition. }
    split; [exact OO|].
    intros a R. rewrite Vh by exact R. rewrite V1, Ve.
    + unfold ievw. rewrite E. ring.
    + intros v [<-|[]]. apply R, OO. right; left; reflexivity.
    + intros v Hv. apply R, Oh; tauto.
  - exists h1. split; [reflexivity|]. split; [exact W1|]. split; [exact O1|].
    intros a R. rewrite V1 by exact R. ring.
Qed.

Lemma naive_fold nodes : incl nodes (bnodes b) -> forall f, wf_factor dom f ->
  exists h, foldM (naive_step b ev) (map dn_name nodes) f = Ok h /\ wf_factor dom h /\
    (forall v, In v (vorder h) <-> In v (vorder f) \/ exists n, In n nodes /\ In v (vorder (from_node n))) /\
    (forall a, inrange card (vorder h) a -> feval h a = (feval f a * qprod (map (fun n => nw n a) nodes))%Qc).
Proof.
  induction nodes as [|n nodes IH]; intros I f W; cbn [map foldM].
  - exists f. split; [reflexivity|]. split; [exact W|]. split.
    + intros v. split; [tauto|]. intros [H|(n & [] & _)]; exact H.
    + intros a R. cbn. ring.
  - destruct (naive_step_spec f n) as (h1 & E1 & W1 & O1 & V1); [apply I; left; reflexivity|exact W|].
    rewrite E1. cbn [rbind].
    destruct (IH (fun x Hx => I x (or_intror Hx)) h1 W1) as (h & E & Wh & O & V).
    exists h. split; [exact E|]. split; [exact Wh|]. split.
    + intros v. rewrite O, O1. split.
      * intros [[H|H]|(m & Hm & H)]; [tauto| |].
        -- right; exists n; split; [left; reflexivity|exact H].
        -- right; exists m; split; [right; exact Hm|exact H].
      * intros [H|(m & [<-|Hm] & H)]; [tauto|tauto|right; eauto].
    + intros a R. rewrite V by exact R. rewrite V1 by (intros v Hv; apply R, O; tauto). cbn. ring.
Qed.

Lemma foldM_marginalize1 f vs : foldM marginalize1 vs f = marginalize f vs.
Proof. reflexivity. Qed.

Theorem naive_exact (Q : list string) : nonneg_bn b ->
  exists r, naive_marginals b Q ev = Ok r /\
    reports b r (filter (fun v => mem v Q) (bnames b)) (posterior b ev).
Proof.
  intros NN. unfold naive_marginals.
  destruct (naive_fold (bnodes b) (incl_refl _) (trivial 1%Qc) (wf_trivial dom 1%Qc)) as (f & E & W & O & V).
  unfold bnames at 1. rewrite E. cbn [rbind].
  assert (Of : forall v, In v (vorder f) <-> In v (bnames b)).
  { intros v. rewrite O. split.
    - intros [[]|(n & Hn & Hv)]. eapply from_node_scope; eassumption.
    - intros Hv. apply in_map_iff in Hv as (n & <- & Hn). right. exists n. split; [exact Hn|left; reflexivity]. }
  set (vs := filter (fun v => mem v Q) (bnames b)).
  set (rest := filter (fun v => negb (mem v Q)) (bnames b)).
  rewrite foldM_marginalize1.
  destruct (marginalize_spec dom f rest W) as (g & Eg & Wg & Og & Vg).
  { apply NoDup_filter, WB. } { intros v Hv. apply Of. apply filter_In in Hv. tauto. }
  rewrite Eg. cbn [rbind]. eexists; split; [reflexivity|].
  assert (Iv : incl vs (bnames b)) by (intros v Hv; apply filter_In in Hv; tauto).
  assert (Ogv : forall v, In v (vorder g) <-> In v vs).
  { intros v. rewrite Og, Of. unfold vs, rest. rewrite !filter_In, negb_true_iff.
    destruct (mem v Q); intuition congruence. }
  assert (Er : forall v, In v rest <-> In v (others b vs)).
  { intros v. rewrite others_In. unfold vs, rest. rewrite !filter_In, negb_true_iff.
    destruct (mem v Q); intuition congruence. }
  apply normalize_posterior; try assumption.
  - apply NoDup_filter, WB.
  - intros a R. rewrite Vg by (intros v Hv; apply R, Ogv, Hv).
    assert (P : Permutation (rev rest) (others b vs)).
    { apply NoDup_Permutation.
      - apply NoDup_rev, NoDup_filter, WB. - apply NoDup_filter, WB.
      - intros v. rewrite <- in_rev. apply Er. }
    rewrite (sum_over_perm card _ _ _ (feval_ext f) P).
    apply sum_over_ext_in. intros c Rc Ec.
    rewrite V.
    + rewrite feval_trivial. unfold iweight, nw. ring.
    + intros v Hv. apply Of in Hv. destruct (In_dec_s v vs) as [Hi|Hi].
      * rewrite Ec by (rewrite others_In; tauto). apply R, Hi.
      * apply Rc, others_In; tauto.
Qed.

(** ** bucket_marginals *)

(** Product of all buckets at an assignment. *)
Definition bprod (bs : list factor) (a : asg) : Qc := qprod (map (fun f => feval f a) bs).

(** [scoped order bs]: buckets are well formed, bucket [j] mentions only
    variables of [order] from position [j] on; the last one is trivial. *)
Inductive scoped : list string -> list factor -> Prop :=
| scoped_nil f : wf_factor dom f -> vorder f = [] -> scoped [] [f]
| scoped_cons v o f bs : wf_factor dom f -> incl (vorder f) (v :: o) -> scoped o bs ->
    scoped (v :: o) (f :: bs).

(** [covered order bs]: each variable occurs in a bucket up to its own. *)
Inductive covered (w : string) : list string -> list factor -> Prop :=
| cov_here v o f bs : In w (vorder f) -> covered w (v :: o) (f :: bs)
| cov_next v o f bs : w <> v -> covered w o bs -> covered w (v :: o) (f :: bs).

Definition all_covered (o : list string) (bs : list factor) : Prop :=
  forall w, In w o -> covered w o bs.

Lemma scoped_wf o bs : scoped o bs -> Forall (wf_factor dom) bs.
Proof. induction 1; constructor; auto. Qed.

Lemma scoped_scope o bs : scoped o bs -> forall f v, In f bs -> In v (vorder f) -> In v o.
Proof.
  induction 1 as [f W E|v o f bs W I S IH]; intros g w Hg Hw.
  - destruct Hg as [<-|[]]. rewrite E in Hw; destruct Hw.
  - destruct Hg as [<-|Hg]; [apply I, Hw|right; eapply IH; eassumption].
Qed.

Lemma bprod_deps o bs : scoped o bs -> deps o (bprod bs).
Proof.
  intros S. unfold bprod. apply (qprod_map_deps o (fun f a => feval f a)).
  intros f Hf a a' E. apply feval_deps. intros v Hv. apply E. eapply scoped_scope; eassumption.
Qed.

Lemma mul_scoped (f g : factor) o : wf_factor dom f -> wf_factor dom g ->
  incl (vorder f) o -> incl (vorder g) o ->
  exists h, fmul f g = Ok h /\ wf_factor dom h /\ incl (vorder h) o /\
    (forall v, In v (vorder h) <-> In v (vorder f) \/ In v (vorder g)) /\
    (forall a, inrange card o a -> feval h a = (feval f a * feval g a)%Qc).
Proof.
  intros Wf Wg If Ig. destruct (fcombine_spec dom Qcmult f g Wf Wg) as (h & E & W & _ & O & V).
  assert (I : incl (vorder h) o) by (intros v Hv; apply O in Hv as [Hv|Hv]; auto).
  exists h. split; [exact E|]. split; [exact W|]. split; [exact I|]. split; [exact O|].
  intros a R. apply V. intros v Hv; apply R, I, Hv.
Qed.

(** Placing a factor into the buckets. *)
Lemma place_spec f o bs : scoped o bs -> wf_factor dom f -> incl (vorder f) o ->
  exists bs', (match place_first f o bs with Some r => r | None => mul_last f bs end) = Ok bs' /\
    scoped o bs' /\
    (forall a, inrange card o a -> bprod bs' a = (bprod bs a * feval f a)%Qc) /\
    (forall w, covered w o bs -> covered w o bs') /\
    (forall w, In w (vorder f) -> covered w o bs').
Proof.
  intros S Wf. revert f Wf. induction S as [g Wg Eg|v o g bs Wg Ig S IH]; intros f Wf If; cbn.
  - assert (Ef : vorder f = []) by (destruct (vorder f) as [|x l]; [reflexivity|destruct (If x); left; reflexivity]).
    destruct (mul_scoped g f [] Wg Wf) as (h & E & W & I & O & V); [rewrite Eg; apply incl_refl|exact If|].
    rewrite E. cbn. exists [h]. split; [reflexivity|]. split; [constructor; [exact W|]|].
    + destruct (vorder h) as [|x l]; [reflexivity|destruct (I x); left; reflexivity].
    + split; [|split].
      * intros a R. unfold bprod; cbn. rewrite V by exact R. ring.
      * intros w C; inversion C.
      * intros w Hw. rewrite Ef in Hw. destruct Hw.
  - destruct (fcontains v f) eqn:C.
    + destruct (mul_scoped g f (v :: o) Wg Wf Ig If) as (h & E & W & I & O & V).
      rewrite E. cbn. exists (h :: bs). split; [reflexivity|]. split; [constructor; assumption|].
      split; [|split].
      * intros a R. unfold bprod; cbn. rewrite V by exact R. ring.
      * intros w Cw. inversion Cw; subst; [apply cov_here, O; tauto|apply cov_next; assumption].
      * intros w Hw. apply cov_here, O. tauto.
    + assert (Nv : ~ In v (vorder f)).
      { intros H. apply (fcontains_spec dom f v Wf) in H. congruence. }
      assert (If' : incl (vorder f) o).
      { intros w Hw. destruct (If w Hw) as [<-|H]; [contradiction|exact H]. }
      destruct (IH f Wf If') as (bs' & E & S' & P & C1 & C2).
      exists (g :: bs'). split.
      { destruct (place_first f o bs) as [r|]; [rewrite E; reflexivity|].
        destruct bs as [|g' bs'']; [inversion S|]. rewrite E. reflexivity. }
      split; [constructor; assumption|]. split; [|split].
      * intros a R. unfold bprod in *; cbn. rewrite P by (intros w Hw; apply R; right; exact Hw). ring.
      * intros w Cw. inversion Cw; subst; [apply cov_here; assumption|apply cov_next; auto].
      * intros w Hw. apply cov_next; [intros ->; contradiction|]. apply C2, Hw.
Qed.

(** The elimination loop. *)
Lemma process_spec k : forall o bs, NoDup o -> k <= length o -> scoped o bs -> all_covered o bs ->
  exists bs', process k o bs = Ok (skipn k o, bs') /\ scoped (skipn k o) bs' /\
    all_covered (skipn k o) bs' /\
    forall a, inrange card (skipn k o) a ->
      bprod bs' a = sum_over card (rev (firstn k o)) (bprod bs) a.
Proof.
  induction k as [|k IH]; intros o bs ND L S C.
  - exists bs. cbn. split; [reflexivity|]. split; [exact S|]. split; [exact C|]. reflexivity.
  - destruct S as [f W E|v o f bs W I S]; [cbn in L; lia|].
    inversion ND as [|? ? Nv ND']; subst.
    assert (Hv : In v (vorder f)).
    { specialize (C v (or_introl eq_refl)). inversion C; subst; [assumption|congruence]. }
    destruct (marginalize1_spec dom f v W Hv) as (tmp & E1 & W1 & O1 & V1).
    cbn [process]. rewrite E1. cbn [rbind].
    assert (It : incl (vorder tmp) o).
    { intros w Hw. rewrite O1 in Hw. apply remove1_In in Hw as [Hw n]; [|apply W].
      destruct (I w Hw) as [<-|H]; [congruence|exact H]. }
    destruct (place_spec tmp o bs S W1 It) as (bs1 & E2 & S1 & P1 & C1 & C2).
    rewrite E2. cbn [rbind].
    destruct (IH o bs1 ND') as (bs' & E3 & S3 & C3 & P3); [cbn in L; lia|exact S1| |].
    { intros w Hw. assert (Cw := C w (or_intror Hw)). inversion Cw; subst.
      - apply C2. rewrite O1. apply remove1_In; [apply W|]. split; [assumption|].
        intros ->; contradiction.
      - apply C1; assumption. }
    exists bs'. cbn [skipn firstn rev]. split; [exact E3|]. split; [exact S3|]. split; [exact C3|].
    intros a R. rewrite P3 by exact R. rewrite sum_over_app.
    assert (Nk : forall w, In w (skipn k o) -> ~ In w (rev (firstn k o))).
    { intros w H1 H2. apply in_rev in H2. rewrite <- (firstn_skipn k o) in ND'.
      clear - ND' H1 H2. induction (firstn k o) as [|x l IHl]; cbn in *; [tauto|].
      inversion ND'; subst. destruct H2 as [->|H2].
      - apply H3. apply in_app_iff; tauto. - auto. }
    apply sum_over_ext_in. intros c Rc Ec.
    assert (Rc' : inrange card o c).
    { intros w Hw. rewrite <- (firstn_skipn k o) in Hw. apply in_app_iff in Hw as [Hw|Hw].
      - apply Rc. rewrite <- in_rev; exact Hw.
      - rewrite Ec by (apply Nk, Hw). apply R, Hw. }
    rewrite P1 by exact Rc'. cbn [sum_over].
    rewrite V1 by (intros w Hw; apply Rc', It, Hw).
    rewrite <- bigsum_mult_l. apply bigsum_ext. intros i Hi.
    unfold bprod at 2. cbn [map qprod]. rewrite Qcmult_comm. f_equal.
    apply (bprod_deps o bs S). intros w Hw. symmetry. apply upd_neq. intros ->; contradiction.
Qed.

(** Multiplying the remaining buckets. *)
Lemma collect_spec bs : forall acc o, wf_factor dom acc -> Forall (wf_factor dom) bs ->
  incl (vorder acc) o -> (forall f, In f bs -> incl (vorder f) o) ->
  exists h, collect acc bs = Ok h /\ wf_factor dom h /\
    (forall v, In v (vorder h) <-> In v (vorder acc) \/ exists f, In f bs /\ In v (vorder f)) /\
    (forall a, inrange card o a -> feval h a = (feval acc a * bprod bs a)%Qc).
Proof.
  induction bs as [|f bs IH]; intros acc o W F I J; cbn.
  - exists acc. split; [reflexivity|]. split; [exact W|]. split.
    + intros v; split; [tauto|]. intros [H|(f & [] & _)]; exact H.
    + intros a R. unfold bprod; cbn; ring.
  - inversion F; subst.
    destruct (mul_scoped f acc o) as (h1 & E1 & W1 & I1 & O1 & V1); try assumption.
    { apply J; left; reflexivity. }
    rewrite E1. cbn.
    destruct (IH h1 o W1) as (h & E & Wh & O & V); try assumption.
    { intros g Hg; apply J; right; exact Hg. }
    exists h. split; [exact E|]. split; [exact Wh|]. split.
    + intros v. rewrite O, O1. split.
      * intros [[H|H]|(g & Hg & H)]; [|tauto|].
        -- right; exists f; split; [left; reflexivity|exact H].
        -- right; exists g; split; [right; exact Hg|exact H].
      * intros [H|(g & [<-|Hg] & H)]; [tauto|tauto|right; eauto].
    + intros a R. rewrite V, V1 by exact R. unfold bprod; cbn. ring.
Qed.

(** Initial buckets. *)
Lemma scoped_init o : scoped o (repeat (trivial 1%Qc) (S (length o))).
Proof.
  induction o as [|v o IH]; cbn; constructor; try apply wf_trivial; try reflexivity; try exact IH.
  intros w [].
Qed.

Lemma bprod_init n a : bprod (repeat (trivial 1%Qc) n) a = 1%Qc.
Proof. unfold bprod. induction n; cbn [repeat map qprod]; [reflexivity|]. rewrite IHn, feval_trivial. ring. Qed.

Lemma place_factor_spec o nodes : incl nodes (bnodes b) -> (forall v, In v (bnames b) -> In v o) ->
  forall bs, scoped o bs ->
  exists bs', foldM (place_factor o) (map from_node nodes) bs = Ok bs' /\ scoped o bs' /\
    (forall a, inrange card o a -> bprod bs' a = (bprod bs a * qprod (map (fun n => feval (from_node n) a) nodes))%Qc) /\
    (forall w, covered w o bs -> covered w o bs') /\
    (forall n, In n nodes -> covered (dn_name n) o bs').
Proof.
  induction nodes as [|n nodes IH]; intros I J bs S; cbn [map foldM].
  - exists bs. split; [reflexivity|]. split; [exact S|]. split; [|split].
    + intros a R. cbn; ring. + auto. + intros n [].
  - assert (Hn : In n (bnodes b)) by (apply I; left; reflexivity).
    assert (Io : incl (vorder (from_node n)) o).
    { intros v Hv. apply J. eapply from_node_scope; eassumption. }
    destruct (place_spec (from_node n) o bs S (wf_from_node b WB n Hn) Io) as (bs1 & E1 & S1 & P1 & C1 & C2).
    unfold place_factor at 1.
    assert (E1' : match place_first (from_node n) o bs with Some r => r | None => Ok bs end = Ok bs1).
    { destruct (place_first (from_node n) o bs) eqn:EP; [exact E1|]. exfalso.
      assert (Hv : In (dn_name n) o) by (apply Io; left; reflexivity).
      assert (Cv : fcontains (dn_name n) (from_node n) = true).
      { apply (fcontains_spec dom); [apply wf_from_node; assumption|left; reflexivity]. }
      clear - S EP Hv Cv. revert EP. induction S as [g Wg Eg|v o g bs Wg Ig S IH]; cbn; [destruct Hv|].
      destruct (fcontains v (from_node n)) eqn:C; [discriminate|].
      destruct Hv as [->|Hv]; [congruence|]. specialize (IH Hv).
      destruct (place_first (from_node n) o bs); [discriminate|]. intros _. apply IH; reflexivity. }
    rewrite E1'. cbn [rbind].
    destruct (IH (fun x Hx => I x (or_intror Hx)) J bs1 S1) as (bs' & E & S' & P & C3 & C4).
    exists bs'. split; [exact E|]. split; [exact S'|]. split; [|split].
    + intros a R. rewrite P, P1 by exact R. cbn. ring.
    + intros w Hw. apply C3, C1, Hw.
    + intros m [<-|Hm]; [apply C3, C2; left; reflexivity|apply C4, Hm].
Qed.

(** Evidence factors. *)
Lemma mul_at_spec ef o bs : NoDup o -> forall v, scoped o bs -> In v o -> wf_factor dom ef -> vorder ef = [v] ->
  exists bs', mul_at (idx v o) ef bs = Ok bs' /\ scoped o bs' /\
    (forall a, inrange card o a -> bprod bs' a = (bprod bs a * feval ef a)%Qc) /\
    (forall w, covered w o bs -> covered w o bs').
Proof.
  intros ND v S Hv We Oe. unfold idx. induction S as [g Wg Eg|u o g bs Wg Ig S IH]; [destruct Hv|].
  cbn [index_of]. destruct (String.eqb_spec v u) as [->|n].
  - destruct (mul_scoped g ef (u :: o) Wg We Ig) as (h & E & W & I & O & V).
    { rewrite Oe. intros w [<-|[]]; left; reflexivity. }
    cbn [mul_at]. rewrite E. cbn. exists (h :: bs). split; [reflexivity|]. split; [constructor; assumption|]. split.
    + intros a R. unfold bprod; cbn. rewrite V by exact R. ring.
    + intros w C. inversion C; subst; [apply cov_here, O; tauto|apply cov_next; assumption].
  - destruct Hv as [Hv|Hv]; [congruence|]. inversion ND; subst.
    destruct (IH H2 Hv) as (bs' & E & S' & P & C).
    destruct (index_of v o) as [i|] eqn:Ei; [|apply index_of_None in Ei; contradiction].
    cbn [mul_at]. rewrite E. cbn. exists (g :: bs'). split; [reflexivity|]. split; [constructor; assumption|]. split.
    + intros a R. unfold bprod in *; cbn. rewrite P by (intros w Hw; apply R; right; exact Hw). ring.
    + intros w Cw. inversion Cw; subst; [apply cov_here; assumption|apply cov_next; auto].
Qed.

Definition ev_prod (l : evidence) (a : asg) : Qc :=
  qprod (map (fun p => match get_node b (fst p) with
                       | Ok n => ievw ev n a | Err _ => 1%Qc end) l).

Lemma add_evidence_spec o (l : evidence) : NoDup o -> incl l ev -> incl (dkeys l) (bnames b) ->
  incl (bnames b) o -> forall bs, scoped o bs ->
  exists bs', foldM (add_evidence b o) l bs = Ok bs' /\ scoped o bs' /\
    (forall a, inrange card o a -> bprod bs' a = (bprod bs a * ev_prod l a)%Qc) /\
    (forall w, covered w o bs -> covered w o bs').
Proof.
  intros ND. induction l as [|[v e] l IH]; intros I K J bs S; cbn [foldM].
  - exists bs. split; [reflexivity|]. split; [exact S|]. split; [|auto].
    intros a R. unfold ev_prod; cbn; ring.
  - assert (Hv : In v (bnames b)) by (apply K; left; reflexivity).
    apply (in_bnames b) in Hv as (n & Hn & En). subst v.
    assert (Ee : dget (dn_name n) ev = Some e).
    { apply In_dget; [apply EV|]. apply I; left; reflexivity. }
    destruct (as_evidence_spec n e Hn Ee) as (ef & E1 & We & Oe & Ve).
    unfold add_evidence at 1. cbn [fst snd].
    assert (Ho : In (dn_name n) o) by (apply J, in_map, Hn).
    rewrite py_index_ok by exact Ho. cbn [rbind].
    rewrite (get_node_ok b WB n Hn). cbn [rbind]. rewrite E1. cbn [rbind].
    destruct (mul_at_spec ef o bs ND _ S Ho We Oe) as (bs1 & E2 & S1 & P1 & C1).
    rewrite E2. cbn [rbind].
    destruct (IH (fun x Hx => I x (or_intror Hx)) (fun x Hx => K x (or_intror Hx)) J bs1 S1)
      as (bs' & E & S' & P & C).
    exists bs'. split; [exact E|]. split; [exact S'|]. split.
    + intros a R. rewrite P, P1 by exact R. unfold ev_prod; cbn [map qprod fst].
      rewrite (get_node_ok b WB n Hn). rewrite Ve; [ring|].
      intros w [<-|[]]. apply R, Ho.
    + intros w Cw. apply C, C1, Cw.
Qed.

(** All evidence together. *)
Lemma ev_prod_all a : incl (dkeys ev) (bnames b) ->
  ev_prod ev a = qprod (map (fun n => ievw ev n a) (bnodes b)).
Proof.
  intros K. unfold ev_prod.
  set (g := fun v => match get_node b v with Ok n => ievw ev n a | Err _ => 1%Qc end).
  change (qprod (map (fun p => g (fst p)) ev) = qprod (map (fun n => ievw ev n a) (bnodes b))).
  rewrite <- (map_map fst g).
  change (map fst ev) with (dkeys ev).
  assert (P : Permutation (bnames b) (dkeys ev ++ others b (dkeys ev))).
  { apply others_split; [exact WB|apply EV|exact K]. }
  apply (Permutation_map g) in P.
  apply qprod_perm in P. rewrite map_app, qprod_app in P.
  assert (O1 : qprod (map g (others b (dkeys ev))) = 1%Qc).
  { assert (G : forall v, In v (others b (dkeys ev)) -> g v = 1%Qc).
    { intros v Hv. unfold g. apply others_In in Hv as [Hv N]. apply (in_bnames b) in Hv as (n & Hn & <-).
      rewrite (get_node_ok b WB n Hn). unfold ievw. apply dget_None in N. rewrite N. reflexivity. }
    revert G. generalize (others b (dkeys ev)). intros l. induction l as [|v l IHl]; cbn; intros G; [reflexivity|].
    rewrite G by (left; reflexivity). rewrite IHl; [ring|]. intros w Hw; apply G; right; exact Hw. }
  rewrite O1, Qcmult_1_r in P. rewrite <- P. unfold bnames. rewrite map_map.
  apply qprod_map_ext. intros n Hn. unfold g. rewrite (get_node_ok b WB n Hn). reflexivity.
Qed.

(** Query variables end up at the back of the order. *)
Lemma move_to_end_spec vs o : NoDup vs -> NoDup o -> incl vs o ->
  move_to_end vs o = (filter (fun v => negb (mem v vs)) o ++ vs, None).
Proof.
  assert (R : forall v o, NoDup o -> remove1 v o = filter (fun w => negb (String.eqb w v)) o).
  { intros v l ND. induction ND as [|x l N ND IH]; cbn; [reflexivity|].
    rewrite (String.eqb_sym x v). destruct (String.eqb_spec v x) as [->|n]; cbn.
    - assert (X : forall l, ~ In x l -> filter (fun w => negb (String.eqb w x)) l = l).
      { clear. induction l as [|y l IH]; cbn; intros H; [reflexivity|].
        rewrite eqb_neq_s by (intros ->; tauto). cbn. rewrite IH; tauto. }
      symmetry; apply X, N.
    - rewrite IH; reflexivity. }
  assert (G : forall vs done o, NoDup (done ++ vs) -> NoDup o -> incl vs o ->
     (exists front, o = front ++ done) ->
     move_to_end vs o = (filter (fun v => negb (mem v vs)) (firstn (length o - length done) o) ++ done ++ vs, None)).
  { clear vs o. intros vs. induction vs as [|v vs IH]; intros done o ND NO I (front & ->); cbn [move_to_end].
    - rewrite app_length. replace (length front + length done - length done) with (length front) by lia.
      rewrite firstn_app, Nat.sub_diag, firstn_all. cbn. rewrite !app_nil_r. f_equal. f_equal.
      symmetry. clear. induction front; cbn; [reflexivity|]. f_equal; exact IHfront.
    - assert (Hv : In v (front ++ done)) by (apply I; left; reflexivity).
      assert (M := Hv). apply mem_In in M. rewrite M.
      assert (Nd : ~ In v done).
      { intros H. apply NoDup_remove_2 in ND. apply ND. apply in_app_iff; tauto. }
      assert (Nvs : ~ In v vs) by (apply NoDup_remove_2 in ND; intros H; apply ND, in_app_iff; tauto).
      assert (Hf : In v front) by (apply in_app_iff in Hv; tauto).
      assert (E : remove1 v (front ++ done) = remove1 v front ++ done).
      { clear - Hf. induction front as [|x l IHl]; cbn; [destruct Hf|].
        destruct (String.eqb_spec v x) as [->|n]; [reflexivity|]. destruct Hf as [->|Hf]; [congruence|].
        cbn. rewrite IHl by exact Hf. reflexivity. }
      assert (NF : NoDup front).
      { clear - NO. induction front; [constructor|]. cbn in NO. inversion NO; subst. constructor.
        - intros H; apply H1, in_app_iff; tauto. - auto. }
      rewrite E, (IH (done ++ [v])).
      + rewrite !app_length. cbn [length].
        replace (length (remove1 v front) + length done + 1 - (length done + 1)) with (length (remove1 v front)) by lia.
        replace (length front + length done - length done) with (length front) by lia.
        rewrite <- !app_assoc, !firstn_app, !Nat.sub_diag, !firstn_all. cbn [app firstn].
        rewrite !app_nil_r. f_equal. f_equal.
        rewrite (R v front NF). clear - Nvs.
        induction front as [|x l IHl]; cbn [filter]; [reflexivity|].
        change (mem x (v :: vs)) with (String.eqb x v || mem x vs).
        destruct (String.eqb_spec x v) as [->|n]; cbn [negb orb filter].
        * exact IHl.
        * destruct (mem x vs); cbn [negb filter]; rewrite IHl; reflexivity.
      + rewrite <- app_assoc. exact ND.
      + rewrite <- E. apply (Permutation_NoDup (l := v :: remove1 v (front ++ done))).
        * apply Permutation_cons_append.
        * apply (Permutation_NoDup (remove1_perm v _ Hv)), NO.
      + intros w Hw. apply in_app_iff. left. rewrite <- E. apply remove1_In; [exact NO|].
        split; [apply I; right; exact Hw|]. intros ->; contradiction.
      + exists (remove1 v front). rewrite <- app_assoc. reflexivity. }
  intros NV NO I. rewrite (G vs [] o); cbn [app length]; auto.
  - rewrite Nat.sub_0_r, firstn_all. reflexivity.
  - exists o. rewrite app_nil_r. reflexivity.
Qed.

Theorem bucket_core_exact (Q o : list string) : nonneg_bn b ->
  NoDup Q -> incl Q (bnames b) -> incl (dkeys ev) (bnames b) ->
  Permutation (bnames b) o -> (exists front, o = front ++ Q) ->
  exists r, bucket_core b Q ev o = Ok r /\ reports b r Q (posterior b ev).
Proof.
  intros NN ND I K P (front & Eo). unfold bucket_core.
  assert (NDo : NoDup o) by (apply (Permutation_NoDup P), WB).
  assert (Ino : forall v, In v (bnames b) <-> In v o).
  { intros v; split; apply Permutation_in; [exact P|symmetry; exact P]. }
  (* the nodes in elimination order *)
  assert (EN : exists nodes, mapM (get_node b) o = Ok nodes /\ Permutation nodes (bnodes b)).
  { assert (G : forall l, incl l (bnames b) -> exists nodes, mapM (get_node b) l = Ok nodes /\
        map dn_name nodes = l /\ incl nodes (bnodes b)).
    { induction l as [|v l IH]; intros Il; cbn [mapM].
      - exists []. repeat split. intros x [].
      - destruct IH as (nodes & E & M & In_); [intros w Hw; apply Il; right; exact Hw|].
        assert (Hv : In v (bnames b)) by (apply Il; left; reflexivity).
        apply (in_bnames b) in Hv as (n & Hn & En). exists (n :: nodes).
        rewrite <- En at 1. rewrite (get_node_ok b WB n Hn). cbn [rbind]. rewrite E. cbn.
        split; [reflexivity|]. split; [rewrite M, En; reflexivity|].
        intros x [<-|Hx]; auto. }
    destruct (G o) as (nodes & E & M & In_); [intros v Hv; apply Ino, Hv|].
    exists nodes. split; [exact E|].
    assert (NDn : NoDup nodes) by (apply (NoDup_map_inv dn_name); rewrite M; exact NDo).
    apply NoDup_Permutation; [exact NDn| |].
    - apply (NoDup_map_inv dn_name), WB.
    - intros n. split; [apply In_|]. intros Hn.
      assert (Hm : In (dn_name n) (map dn_name nodes)) by (rewrite M; apply Ino, in_map, Hn).
      apply in_map_iff in Hm as (m & Em & Hm). 
      assert (F1 := get_node_ok b WB n Hn). assert (F2 := get_node_ok b WB m (In_ m Hm)).
      rewrite Em in F2. congruence. }
  destruct EN as (nodes & EN & PN). rewrite EN. cbn [rbind].
  destruct (place_factor_spec o nodes) with (bs := repeat (trivial 1%Qc) (S (length o)))
    as (bs1 & E1 & S1 & P1 & _ & C1).
  { intros n Hn; apply (Permutation_in _ PN), Hn. } { intros v; apply Ino. } { apply scoped_init. }
  rewrite E1. cbn [rbind].
  destruct (add_evidence_spec o ev NDo (incl_refl _) K) with (bs := bs1) as (bs2 & E2 & S2 & P2 & C2).
  { intros v; apply Ino. } { exact S1. }
  rewrite E2. cbn [rbind].
  assert (Lo : length o = length front + length Q) by (rewrite Eo, app_length; reflexivity).
  assert (A2 : all_covered o bs2).
  { intros w Hw. apply C2. apply Ino in Hw. apply (in_bnames b) in Hw as (n & Hn & <-). apply C1.
    apply (Permutation_in _ (Permutation_sym PN)), Hn. }
  destruct (process_spec (length o - length Q) o bs2 NDo) as (bs3 & E3 & S3 & C3 & P3).
  { lia. } { exact S2. } { exact A2. }
  rewrite E3. cbn [rbind].
  replace (length o - length Q) with (length front) in * by lia.
  assert (Esk : skipn (length front) o = Q).
  { rewrite Eo, skipn_app, skipn_all, Nat.sub_diag. reflexivity. }
  assert (Efn : firstn (length front) o = front).
  { rewrite Eo, firstn_app, Nat.sub_diag, firstn_all. cbn. apply app_nil_r. }
  rewrite Esk, ?Efn in *.
  replace (Nat.leb (length Q) (length o)) with true by (symmetry; apply Nat.leb_le; lia).
  assert (SC := scoped_scope _ _ S3). assert (WW := scoped_wf _ _ S3).
  assert (CV : forall v, In v Q -> exists f, In f bs3 /\ In v (vorder f)).
  { intros v Hv. specialize (C3 v Hv). clear - C3. induction C3.
    - eexists; split; [left; reflexivity|eassumption].
    - destruct IHC3 as (g & Hg & Hw). exists g; split; [right; exact Hg|exact Hw]. }
  destruct bs3 as [|f bs4]; [inversion S3|].
  inversion WW as [|? ? Wf4 WW4]; subst x l.
  destruct (collect_spec bs4 f Q) as (h & Eh & Wh & Oh & Vh); try assumption.
  { intros v Hv. eapply SC; [left; reflexivity|exact Hv]. }
  { intros g Hg v Hv. eapply SC; [right; exact Hg|exact Hv]. }
  rewrite Eh. cbn [rbind]. eexists; split; [reflexivity|].
  assert (OQ : forall v, In v (vorder h) <-> In v Q).
  { intros v. rewrite Oh. split.
    - intros [H|(g & Hg & H)]; [eapply SC; [left; reflexivity|exact H]|eapply SC; [right; exact Hg|exact H]].
    - intros H. destruct (CV v H) as (g & [<-|Hg] & Hv); [left; exact Hv|right; eauto]. }
  apply normalize_posterior; try assumption.
  intros a R. rewrite Vh by exact R.
  change (feval f a * bprod bs4 a)%Qc with (bprod (f :: bs4) a). rewrite P3 by exact R.
  assert (PO : Permutation (rev front) (others b Q)).
  { apply NoDup_Permutation.
    - apply NoDup_rev. rewrite Eo in NDo. clear - NDo. induction front; [constructor|].
      cbn in NDo. inversion NDo; subst. constructor; [intros H; apply H1, in_app_iff; tauto|auto].
    - apply NoDup_filter, WB.
    - intros v. rewrite <- in_rev, others_In, Ino, Eo, in_app_iff.
      assert (D : In v front -> ~ In v Q).
      { rewrite Eo in NDo. clear - NDo. induction front as [|x l IH]; cbn in *; [tauto|].
        inversion NDo; subst. intros [->|H]; [intros HQ; apply H1, in_app_iff; tauto|auto]. }
      tauto. }
  assert (X2 : ext (bprod bs2)) by (eapply deps_ext, bprod_deps, S2).
  rewrite (sum_over_perm card _ _ _ X2 PO).
  apply sum_over_ext_in. intros c Rc Ec.
  assert (Rco : inrange card o c).
  { intros v Hv. apply Ino in Hv. destruct (In_dec_s v Q) as [Hi|Hi].
    - rewrite Ec by (rewrite others_In; tauto). apply R, Hi.
    - apply Rc, others_In; tauto. }
  rewrite P2, P1 by exact Rco. rewrite bprod_init, (ev_prod_all c K).
  unfold iweight. rewrite qprod_mult.
  rewrite (qprod_perm _ _ (Permutation_map (fun n => feval (from_node n) c) PN)). ring.
Qed.

Theorem bucket_exact (Q o : list string) : nonneg_bn b ->
  NoDup Q -> incl Q (bnames b) -> incl (dkeys ev) (bnames b) -> Permutation (bnames b) o ->
  exists r, bucket_marginals b Q ev o = (filter (fun v => negb (mem v Q)) o ++ Q, Ok r) /\
    reports b r Q (posterior b ev).
Proof.
  intros NN ND I K P. unfold bucket_marginals.
  assert (NDo : NoDup o) by (apply (Permutation_NoDup P), WB).
  rewrite move_to_end_spec; [|exact ND|exact NDo|intros v Hv; apply (Permutation_in _ P), I, Hv].
  destruct (bucket_core_exact Q (filter (fun v => negb (mem v Q)) o ++ Q)) as (r & E & R); try assumption.
  - rewrite P. apply NoDup_Permutation.
    + exact NDo.
    + apply NoDup_app_disj; [apply NoDup_filter, NDo|exact ND|].
      intros x H1 H2. apply filter_In in H1 as [_ H1]. apply negb_true_iff, mem_nIn in H1. contradiction.
    + intros v. rewrite in_app_iff, filter_In, negb_true_iff, mem_nIn.
      destruct (In_dec_s v Q) as [H|H]; [|tauto]. split; [tauto|]. intros _. apply (Permutation_in _ P), I, H.
  - exists (filter (fun v => negb (mem v Q)) o). reflexivity.
  - exists r. rewrite E. auto.
Qed.

End VE.
