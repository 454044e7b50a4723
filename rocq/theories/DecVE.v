(** Elimination of variables from joint factors. *)
From Verif Require Import Base BaseFacts NDArray NDArrayFacts SumCalc Factor FactorFacts SpecFacts Decision.
From Coq Require Import Field.

Section Elim.
Variable dom : string -> list string.
Variable vars : list string.
Context {SO : SetOrder} {BO : BagOrder}.
Notation card := (card dom).

Record wf_jf (f : jfactor) : Prop := {
  wj_p : wf_factor dom (fst f);
  wj_u : wf_factor dom (snd f);
  wj_scope : forall v, In v (vorder (snd f)) <-> In v (vorder (fst f));
  wj_vars : incl (vorder (fst f)) vars;
  wj_nonneg : forall a, inrange card vars a -> (0 <= feval (fst f) a)%Qc
}.

Definition PP (l : list jfactor) (a : asg) : Qc := qprod (map (fun f => feval (fst f) a) l).
Definition UU (l : list jfactor) (a : asg) : Qc := qsum (map (fun f => feval (snd f) a) l).

Lemma range_sub l a : incl l vars -> inrange card vars a -> inrange card l a.
Proof. intros I R v Hv. apply R, I, Hv. Qed.

Lemma combine_two_spec f g : wf_jf f -> wf_jf g -> exists h, combine_two f g = Ok h /\ wf_jf h /\
  (forall v, In v (vorder (fst h)) <-> In v (vorder (fst f)) \/ In v (vorder (fst g))) /\
  forall a, inrange card vars a -> feval (fst h) a = (feval (fst f) a * feval (fst g) a)%Qc /\
                                   feval (snd h) a = (feval (snd f) a + feval (snd g) a)%Qc.
Proof.
  intros F G. unfold combine_two.
  destruct (fcombine_spec dom Qcmult (fst f) (fst g) (wj_p _ F) (wj_p _ G)) as (p & Ep & Wp & _ & Op & Vp).
  destruct (fcombine_spec dom Qcplus (snd f) (snd g) (wj_u _ F) (wj_u _ G)) as (u & Eu & Wu & _ & Ou & Vu).
  unfold fmul, fadd. rewrite Ep, Eu. cbn [rbind].
  assert (IV : incl (vorder p) vars).
  { intros v Hv. apply Op in Hv as [H|H]; [apply (wj_vars _ F), H|apply (wj_vars _ G), H]. }
  assert (OU : forall v, In v (vorder u) <-> In v (vorder p)).
  { intros v. rewrite Ou, Op, (wj_scope _ F), (wj_scope _ G). tauto. }
  exists (p, u). split; [reflexivity|]. split; [|split].
  - constructor; cbn [fst snd]; [exact Wp|exact Wu|exact OU|exact IV|].
    intros a R. rewrite Vp by (apply (range_sub _ _ IV R)).
    apply Qcmult_nonneg; [apply (wj_nonneg _ F), R|apply (wj_nonneg _ G), R].
  - exact Op.
  - intros a R. cbn [fst snd]. split; [apply Vp, (range_sub _ _ IV R)|].
    apply Vu. intros v Hv. apply R, IV, OU, Hv.
Qed.

Lemma combine_fold l : Forall wf_jf l -> forall f, wf_jf f -> exists h, foldM combine_two l f = Ok h /\ wf_jf h /\
  (forall v, In v (vorder (fst h)) <-> exists g, In g (f :: l) /\ In v (vorder (fst g))) /\
  forall a, inrange card vars a -> feval (fst h) a = PP (f :: l) a /\ feval (snd h) a = UU (f :: l) a.
Proof.
  induction 1 as [|g l G L IH]; intros f F.
  - exists f. split; [reflexivity|]. split; [exact F|]. split.
    + intros v. split; [intros H; exists f; split; [left; reflexivity|exact H]|]. intros (g & [<-|[]] & H); exact H.
    + intros a R. unfold PP, UU. cbn. split; ring.
  - destruct (combine_two_spec f g F G) as (h & E & W & O & V). cbn [foldM]. rewrite E. cbn [rbind].
    destruct (IH h W) as (k & Ek & Wk & Ok' & Vk). exists k. split; [exact Ek|]. split; [exact Wk|]. split.
    + intros v. rewrite Ok'. split.
      * intros (x & [<-|Ix] & H).
        -- apply O in H as [H|H]; [exists f|exists g]; (split; [cbn; tauto|exact H]).
        -- exists x. split; [right; right; exact Ix|exact H].
      * intros (x & [<-|[<-|Ix]] & H).
        -- exists h. split; [left; reflexivity|]. apply O; left; exact H.
        -- exists h. split; [left; reflexivity|]. apply O; right; exact H.
        -- exists x. split; [right; exact Ix|exact H].
    + intros a R. destruct (Vk a R) as [A B]. destruct (V a R) as [C D]. rewrite A, B. unfold PP, UU. cbn.
      rewrite C, D. split; ring.
Qed.

Lemma PP_perm l l' a : Permutation l l' -> PP l a = PP l' a.
Proof. intros P. apply qprod_perm, Permutation_map, P. Qed.
Lemma UU_perm l l' a : Permutation l l' -> UU l a = UU l' a.
Proof. intros P. apply qsum_perm, Permutation_map, P. Qed.

Lemma combine_spec k l : Forall wf_jf l -> l <> [] -> exists h, combine_factors (bag k l) = Ok h /\ wf_jf h /\
  (forall v, In v (vorder (fst h)) <-> exists g, In g l /\ In v (vorder (fst g))) /\
  forall a, inrange card vars a -> feval (fst h) a = PP l a /\ feval (snd h) a = UU l a.
Proof.
  intros W N. assert (P := bag_perm k l). destruct (bag k l) as [|f l'] eqn:E.
  - apply Permutation_nil in P. contradiction.
  - assert (W' : Forall wf_jf (f :: l')) by (eapply Permutation_Forall; [apply Permutation_sym, P|exact W]).
    inversion W'; subst. cbn [combine_factors].
    destruct (combine_fold l' H2 f H1) as (h & Eh & Wh & Oh & Vh). exists h. split; [exact Eh|]. split; [exact Wh|]. split.
    + intros v. rewrite Oh. split; intros (g & I & H); exists g; (split; [|exact H]).
      * eapply Permutation_in; [exact P|exact I].
      * eapply Permutation_in; [apply Permutation_sym, P|exact I].
    + intros a R. rewrite <- (PP_perm _ _ a P), <- (UU_perm _ _ a P). apply Vh, R.
Qed.

Lemma PP_app l l' a : PP (l ++ l') a = (PP l a * PP l' a)%Qc.
Proof. unfold PP. rewrite map_app. apply qprod_app. Qed.
Lemma UU_app l l' a : UU (l ++ l') a = (UU l a + UU l' a)%Qc.
Proof. unfold UU. rewrite map_app. apply qsum_app. Qed.

Lemma PP_deps l : Forall wf_jf l -> deps vars (PP l).
Proof.
  intros W. apply (qprod_map_deps vars (fun f => feval (fst f))). intros f Hf.
  apply (deps_incl (vorder (fst f))); [|apply feval_deps]. rewrite Forall_forall in W. apply (wj_vars _ (W f Hf)).
Qed.

Lemma PP_nonneg l a : Forall wf_jf l -> inrange card vars a -> (0 <= PP l a)%Qc.
Proof.
  intros W R. apply qprod_nonneg. rewrite Forall_map. eapply Forall_impl; [|exact W]. intros f F. apply (wj_nonneg _ F), R.
Qed.

Lemma range_upd v i a : inrange card vars a -> i < card v -> inrange card vars (upd a v i).
Proof. intros R L u Hu. unfold upd. destruct (String.eqb_spec u v) as [->|]; [exact L|apply R, Hu]. Qed.

(** Marginalising one joint factor. *)
Lemma marginalize_joint_spec f v : wf_jf f -> In v (vorder (fst f)) ->
  ((forall u, In u (vorder (fst f)) -> u = v) -> forall a, inrange card vars a -> bigsum (card v) (fun i => feval (fst f) (upd a v i)) <> 0%Qc) ->
  (exists a, inrange card vars a) ->
  exists h, marginalize_joint f v = Ok h /\ wf_jf h /\
    (forall u, In u (vorder (fst h)) <-> In u (vorder (fst f)) /\ u <> v) /\
    forall a, inrange card vars a ->
      feval (fst h) a = bigsum (card v) (fun i => feval (fst f) (upd a v i)) /\
      (feval (fst h) a * feval (snd h) a)%Qc = bigsum (card v) (fun i => feval (fst f) (upd a v i) * feval (snd f) (upd a v i))%Qc.
Proof.
  intros F Iv T (a0 & R0). unfold marginalize_joint.
  destruct (marginalize1_spec dom (fst f) v (wj_p _ F) Iv) as (p & Ep & Wp & Op & Vp). rewrite Ep. cbn [rbind].
  destruct (fcombine_spec dom Qcmult (fst f) (snd f) (wj_p _ F) (wj_u _ F)) as (pu & Epu & Wpu & _ & Opu & Vpu).
  unfold fmul. rewrite Epu. cbn [rbind].
  assert (Ipu : forall u, In u (vorder pu) <-> In u (vorder (fst f))).
  { intros u. rewrite Opu, (wj_scope _ F). tauto. }
  destruct (marginalize1_spec dom pu v Wpu (proj2 (Ipu v) Iv)) as (m & Em & Wm & Om & Vm). rewrite Em. cbn [rbind].
  assert (SP : forall u, In u (vorder p) <-> In u (vorder (fst f)) /\ u <> v).
  { intros u. rewrite Op. apply remove1_In, (wj_p _ F). }
  assert (SM : forall u, In u (vorder m) <-> In u (vorder (fst f)) /\ u <> v).
  { intros u. rewrite Om, remove1_In by apply Wpu. rewrite Ipu. tauto. }
  assert (VP : forall a, inrange card vars a -> feval p a = bigsum (card v) (fun i => feval (fst f) (upd a v i))).
  { intros a R. apply Vp. intros u Hu. apply R. apply SP in Hu. apply (wj_vars _ F), Hu. }
  destruct (fdiv_spec dom m p Wm Wp) as (q & Eq & Wq & Oq & Vq).
  { intros u Hu. apply SM, SP, Hu. }
  { intros Z. assert (C : forall u, In u (vorder (fst f)) -> u = v).
    { intros u Hu. destruct (string_dec u v) as [E|N]; [exact E|]. assert (X : In u (vorder p)) by (apply SP; auto).
      rewrite Z in X. destruct X. }
    assert (E : feval p (fun _ => 0) = feval p a0). { apply feval_deps. rewrite Z. intros ? []. }
    rewrite E, (VP _ R0). apply T; assumption. }
  rewrite Eq. cbn [rbind]. exists (p, q). split; [reflexivity|]. split; [|split].
  - constructor; cbn [fst snd]; [exact Wp|exact Wq| | |].
    + intros u. rewrite Oq, SM, SP. tauto.
    + intros u Hu. apply SP in Hu as [Hu _]. apply (wj_vars _ F), Hu.
    + intros a R. rewrite (VP a R). apply bigsum_nonneg. intros i Hi. apply (wj_nonneg _ F). apply range_upd; assumption.
  - exact SP.
  - intros a R. cbn [fst snd]. split; [apply VP, R|].
    assert (VM : feval m a = bigsum (card v) (fun i => feval (fst f) (upd a v i) * feval (snd f) (upd a v i))%Qc).
    { rewrite Vm by (intros u Hu; apply R; apply SM in Hu; apply (wj_vars _ F), Hu).
      apply bigsum_ext. intros i Hi. apply Vpu. intros u Hu. apply Ipu in Hu. apply (range_upd v i a R Hi), (wj_vars _ F), Hu. }
    rewrite Vq by (intros u Hu; apply R; apply Oq, SM in Hu; apply (wj_vars _ F), Hu). rewrite VM.
    destruct (Qc_eq_dec (feval p a) 0%Qc) as [Z|NZ].
    + rewrite Z. symmetry. rewrite bigsum_zero; [ring|]. intros i Hi. rewrite (VP a R) in Z.
      assert (Zi : feval (fst f) (upd a v i) = 0%Qc).
      { apply (bigsum_nonneg_zero (card v) (fun i => feval (fst f) (upd a v i))); [|exact Z|exact Hi].
        intros j Hj. apply (wj_nonneg _ F), range_upd; assumption. }
      rewrite Zi. ring.
    + field. exact NZ.
Qed.

Lemma mem_filter_spec v (l : list jfactor) f : In f (filter (fun f => mem v (vorder (fst f))) l) <-> In f l /\ In v (vorder (fst f)).
Proof. rewrite filter_In, mem_In. reflexivity. Qed.

Lemma filter_split {A} (P : A -> bool) (l : list A) : Permutation l (filter (fun x => negb (P x)) l ++ filter P l).
Proof.
  induction l as [|x l IH]; [constructor|]. cbn. destruct (P x); cbn.
  - etransitivity; [apply perm_skip, IH|]. apply Permutation_middle.
  - apply perm_skip, IH.
Qed.

Lemma Forall_filter {A} (Q : A -> Prop) (P : A -> bool) l : Forall Q l -> Forall Q (filter P l).
Proof. rewrite !Forall_forall. intros H x Hx. apply filter_In in Hx. apply H, Hx. Qed.

Definition covered (l : list jfactor) (v : string) : Prop := exists f, In f l /\ In v (vorder (fst f)).

Lemma sum_last vs v F a : ext F -> sum_over card (v :: vs) F a = sum_over card vs (fun b => bigsum (card v) (fun i => F (upd b v i))) a.
Proof.
  intros X. rewrite (sum_over_perm card (v :: vs) (vs ++ [v])); [|exact X|apply Permutation_cons_append].
  rewrite sum_over_app. reflexivity.
Qed.

Lemma step_sums v (oth rel : list jfactor) h a : Forall wf_jf oth -> (forall f, In f oth -> ~ In v (vorder (fst f))) -> Forall wf_jf rel ->
  inrange card vars a ->
  feval (fst h) a = bigsum (card v) (fun i => PP rel (upd a v i)) ->
  (feval (fst h) a * feval (snd h) a)%Qc = bigsum (card v) (fun i => PP rel (upd a v i) * UU rel (upd a v i))%Qc ->
  PP (oth ++ [h]) a = bigsum (card v) (fun i => PP (oth ++ rel) (upd a v i)) /\
  (PP (oth ++ [h]) a * UU (oth ++ [h]) a)%Qc = bigsum (card v) (fun i => PP (oth ++ rel) (upd a v i) * UU (oth ++ rel) (upd a v i))%Qc.
Proof.
  intros WO NO WR R E1 E2.
  assert (PO : forall i, PP oth (upd a v i) = PP oth a).
  { intros i. unfold PP. apply qprod_map_ext. intros f Hf. apply feval_deps. intros u Hu. apply upd_neq. intros ->. apply (NO f Hf Hu). }
  assert (UO : forall i, UU oth (upd a v i) = UU oth a).
  { intros i. unfold UU. apply qsum_map_ext. intros f Hf. apply feval_deps. intros u Hu. apply upd_neq. intros ->.
    apply (NO f Hf). rewrite Forall_forall in WO. apply (wj_scope _ (WO f Hf)), Hu. }
  assert (PH : PP [h] a = feval (fst h) a) by (unfold PP; cbn; ring).
  assert (UH : UU [h] a = feval (snd h) a) by (unfold UU; cbn; ring).
  split.
  - rewrite PP_app, PH, E1, <- bigsum_mult_l. apply bigsum_ext. intros i _. rewrite PP_app, PO. reflexivity.
  - rewrite PP_app, UU_app, PH, UH.
    transitivity ((PP oth a * UU oth a) * feval (fst h) a + PP oth a * (feval (fst h) a * feval (snd h) a))%Qc; [ring|].
    rewrite E2, E1, <- !bigsum_mult_l, <- bigsum_plus. apply bigsum_ext. intros i _. rewrite PP_app, UU_app, PO, UO. ring.
Qed.

Lemma UU_deps l : Forall wf_jf l -> deps vars (UU l).
Proof.
  intros W a b E. unfold UU. apply qsum_map_ext. intros f Hf. rewrite Forall_forall in W. apply feval_deps.
  intros v Hv. apply E, (wj_vars _ (W f Hf)), (wj_scope _ (W f Hf)), Hv.
Qed.

Theorem eliminate_spec vs : NoDup vs -> incl vs vars -> forall k l, Forall wf_jf l -> (forall v, In v vs -> covered l v) ->
  (exists a, inrange card vars a /\ sum_over card vs (PP l) a <> 0%Qc) ->
  exists l', eliminate k l vs = Ok l' /\ Forall wf_jf l' /\ (l <> [] -> l' <> []) /\
    (forall v, covered l' v <-> covered l v /\ ~ In v vs) /\
    forall a, inrange card vars a -> PP l' a = sum_over card vs (PP l) a /\
       (PP l' a * UU l' a)%Qc = sum_over card vs (fun b => PP l b * UU l b)%Qc a.
Proof.
  induction 1 as [|v vs Nv ND IH]; intros IV k l W C NZ.
  - exists l. split; [reflexivity|]. split; [exact W|]. split; [tauto|]. split; [intros v; cbn; tauto|]. intros a R. split; reflexivity.
  - cbn [eliminate]. set (rel := filter (fun f => mem v (vorder (fst f))) l).
    set (oth := filter (fun f => negb (mem v (vorder (fst f)))) l).
    assert (PL : Permutation l (oth ++ rel)) by apply filter_split.
    assert (WR : Forall wf_jf rel) by (apply Forall_filter, W).
    assert (WO : Forall wf_jf oth) by (apply Forall_filter, W).
    destruct (C v (or_introl eq_refl)) as (f0 & I0 & S0).
    assert (NR : rel <> []).
    { intros Z. assert (X : In f0 rel) by (apply mem_filter_spec; auto). rewrite Z in X. destruct X. }
    assert (NO : forall f, In f oth -> ~ In v (vorder (fst f))).
    { intros f Hf Hv. apply filter_In in Hf as [_ Hf]. apply negb_true_iff in Hf. apply mem_nIn in Hf. contradiction. }
    destruct (combine_spec k rel WR NR) as (t & Et & Wt & Ot & Vt). fold rel. rewrite Et. cbn [rbind].
    assert (It : In v (vorder (fst t))). { apply Ot. exists f0. split; [apply mem_filter_spec; auto|exact S0]. }
    assert (XP : ext (PP l)) by (eapply deps_ext, PP_deps, W).
    assert (Iv : In v vars) by (apply IV; left; reflexivity).
    destruct NZ as (a0 & R0 & NZ).
    destruct (marginalize_joint_spec t v Wt It) as (h & Eh & Wh & Oh & Vh).
    { intros Only a Ra Z. apply NZ. rewrite sum_last by exact XP. apply sum_over_zero. intros b Rb Eb.
      assert (Rb' : inrange card vars b).
      { intros u Hu. destruct (In_dec_s u vs) as [I|N]; [apply Rb, I|rewrite (Eb u N); apply R0, Hu]. }
      rewrite (bigsum_ext _ _ (fun i => PP oth b * feval (fst t) (upd a v i))%Qc); [rewrite bigsum_mult_l, Z; ring|].
      intros i Hi. rewrite (PP_perm _ _ _ PL), PP_app. f_equal.
      - unfold PP. apply qprod_map_ext. intros f Hf. apply feval_deps. intros u Hu. apply upd_neq. intros ->. apply (NO f Hf Hu).
      - rewrite <- (proj1 (Vt _ (range_upd v i b Rb' Hi))). apply feval_deps. intros u Hu. rewrite (Only u Hu), !upd_eq. reflexivity. }
    { exists a0. exact R0. }
    rewrite Eh. cbn [rbind].
    assert (Wl : Forall wf_jf (oth ++ [h])) by (apply Forall_app; split; [exact WO|constructor; [exact Wh|constructor]]).
    assert (ST : forall a, inrange card vars a -> PP (oth ++ [h]) a = bigsum (card v) (fun i => PP l (upd a v i)) /\
       (PP (oth ++ [h]) a * UU (oth ++ [h]) a)%Qc = bigsum (card v) (fun i => PP l (upd a v i) * UU l (upd a v i))%Qc).
    { intros a R. destruct (Vh a R) as [E1 E2].
      destruct (step_sums v oth rel h a WO NO WR R) as [A B].
      - rewrite E1. apply bigsum_ext. intros i Hi. apply Vt, range_upd; assumption.
      - rewrite E2. apply bigsum_ext. intros i Hi. destruct (Vt _ (range_upd v i a R Hi)) as [-> ->]. reflexivity.
      - split; [etransitivity; [exact A|]|etransitivity; [exact B|]]; apply bigsum_ext; intros i _;
        rewrite (PP_perm _ _ (upd a v i) PL), ?(UU_perm _ _ (upd a v i) PL); reflexivity. }
    assert (CV : forall u, covered (oth ++ [h]) u <-> covered l u /\ u <> v).
    { intros u. split.
      - intros (f & Hf & Hu). apply in_app_or in Hf as [Hf|[<-|[]]].
        + split; [exists f; split; [|exact Hu]; apply filter_In in Hf; tauto|]. intros ->. apply (NO f Hf Hu).
        + apply Oh in Hu as [Hu N]. split; [|exact N]. apply Ot in Hu as (g & Hg & Hu).
          exists g. apply mem_filter_spec in Hg. tauto.
      - intros ((f & Hf & Hu) & N). destruct (mem v (vorder (fst f))) eqn:M.
        + exists h. split; [apply in_or_app; right; left; reflexivity|]. apply Oh. split; [|exact N].
          apply Ot. exists f. split; [apply filter_In; auto|exact Hu].
        + exists f. split; [|exact Hu]. apply in_or_app; left. apply filter_In. rewrite M. auto. }
    destruct (IH (fun x Hx => IV x (or_intror Hx)) (S k) (oth ++ [h]) Wl) as (l' & El & Wl' & NE & Cl & Vl).
    { intros u Hu. apply CV. split; [apply C; right; exact Hu|]. intros ->; contradiction. }
    { exists a0. split; [exact R0|]. rewrite <- (sum_over_ext_in card vs (fun b => bigsum (card v) (fun i => PP l (upd b v i)))).
      - rewrite <- sum_last by exact XP. exact NZ.
      - intros b Rb Eb. symmetry. apply ST. intros u Hu. destruct (In_dec_s u vs) as [I|N]; [apply Rb, I|rewrite (Eb u N); apply R0, Hu]. }
    exists l'. split; [exact El|]. split; [exact Wl'|]. split.
    { intros _. apply NE. destruct oth; discriminate. }
    split.
    { intros u. rewrite Cl, CV. cbn. intuition congruence. }
    intros a R. destruct (Vl a R) as [A B].
    assert (XU : ext (fun b => PP l b * UU l b)%Qc).
    { intros b c E. rewrite (XP b c E), (deps_ext _ _ (UU_deps l W) b c E). reflexivity. }
    rewrite !sum_last by assumption.
    split; [etransitivity; [exact A|]|etransitivity; [exact B|]]; apply sum_over_ext_in; intros b Rb Eb; apply ST; intros u Hu;
      (destruct (In_dec_s u vs) as [I|N]; [apply Rb, I|rewrite (Eb u N); apply R, Hu]).
Qed.

Theorem generalized_VE_spec l vs : NoDup vs -> incl vs vars -> Forall wf_jf l -> l <> [] -> (forall v, In v vs -> covered l v) ->
  (exists a, inrange card vars a /\ sum_over card vs (PP l) a <> 0%Qc) ->
  exists r, generalized_VE l vs = Ok r /\ wf_jf r /\
    (forall v, In v (vorder (fst r)) <-> covered l v /\ ~ In v vs) /\
    forall a, inrange card vars a -> feval (fst r) a = sum_over card vs (PP l) a /\
       (feval (fst r) a * feval (snd r) a)%Qc = sum_over card vs (fun b => PP l b * UU l b)%Qc a.
Proof.
  intros ND IV W NE C NZ. unfold generalized_VE.
  destruct (eliminate_spec vs ND IV 0 l W C NZ) as (l' & E & W' & N' & C' & V'). rewrite E. cbn [rbind].
  destruct (combine_spec (length vs) l' W' (N' NE)) as (r & Er & Wr & Or & Vr). exists r. split; [exact Er|]. split; [exact Wr|].
  split; [intros v; rewrite Or; apply C'|]. intros a R. destruct (Vr a R) as [-> ->]. apply V', R.
Qed.
End Elim.
