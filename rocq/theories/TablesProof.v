(** The variables of the tables made by variable elimination. *)
From Verif Require Import Base BaseFacts NDArray NDArrayFacts SumCalc Factor FactorFacts Exact Spec SpecFacts VEProof SepSpec Tables TablesSpec.

(** ** The record does not change the results *)
Section Erase.
Context {SO : SetOrder}.

Lemma snd_bind {A B} (m : logged A) (k : A -> logged B) (k' : A -> res B) :
  (forall a, snd (k a) = k' a) -> snd (lbind m k) = rbind (snd m) k'.
Proof. intros H. unfold lbind. destruct (snd m); cbn [rbind snd]; [apply H|reflexivity]. Qed.

Lemma snd_fold {A B} (f : B -> A -> logged B) (f' : B -> A -> res B) (H : forall b a, snd (f b a) = f' b a) :
  forall l b, snd (lfold f l b) = foldM f' l b.
Proof.
  induction l as [|x l IH]; intros b; cbn [lfold foldM]; [reflexivity|]. rewrite (snd_bind _ _ (fun b' => foldM f' l b')) by exact IH. now rewrite H.
Qed.

Lemma snd_times f g : snd (times f g) = fmul f g.
Proof. unfold times. now destruct (fmul f g). Qed.
Lemma snd_sum f v : snd (sum_out f v) = marginalize1 f v.
Proof. unfold sum_out. now destruct (marginalize1 f v). Qed.
Lemma snd_given r : snd (given r) = r.
Proof. now destruct r. Qed.

Lemma snd_naive_step b ev f v : snd (naive_step_log b ev f v) = naive_step b ev f v.
Proof.
  unfold naive_step_log, naive_step. apply snd_bind. intros n. unfold lbind at 1. cbn [given snd fst].
  rewrite (snd_bind _ _ (fun f1 => match dget v ev with Some e => rbind (as_evidence v (dn_values n) e None) (fun ef => fmul f1 ef) | None => Ok f1 end)).
  - now rewrite snd_times.
  - intros f1. destruct (dget v ev) as [e|]; [|reflexivity]. rewrite (snd_bind _ _ (fun ef => fmul f1 ef)) by (intros; apply snd_times). now rewrite snd_given.
Qed.

Theorem naive_erase b Q ev : snd (naive_log b Q ev) = naive_marginals b Q ev.
Proof.
  unfold naive_log, naive_marginals. rewrite (snd_bind _ _ (fun f => rbind (foldM marginalize1 (filter (fun v => negb (mem v Q)) (bnames b)) f) (fun g => Ok (normalize g)))).
  - now rewrite (snd_fold _ (naive_step b ev) (snd_naive_step b ev)).
  - intros f. rewrite (snd_bind _ _ (fun g => Ok (normalize g))) by reflexivity. now rewrite (snd_fold _ marginalize1 snd_sum).
Qed.

Lemma snd_place_first f : forall o bs, option_map snd (place_first_log f o bs) = place_first f o bs.
Proof.
  induction o as [|v o IH]; intros [|g bs]; try reflexivity. cbn [place_first_log place_first].
  destruct (fcontains v f).
  - cbn [option_map]. f_equal. rewrite (snd_bind _ _ (fun b' => Ok (b' :: bs))) by reflexivity. now rewrite snd_times.
  - specialize (IH bs). destruct (place_first_log f o bs) as [r|]; cbn [option_map] in IH |- *.
    + rewrite <- IH. f_equal. now apply snd_bind.
    + now rewrite <- IH.
Qed.

Lemma snd_mul_last f : forall bs, snd (mul_last_log f bs) = mul_last f bs.
Proof.
  induction bs as [|g bs IH]; [reflexivity|]. destruct bs as [|g' bs].
  - cbn [mul_last_log mul_last]. rewrite (snd_bind _ _ (fun b' => Ok [b'])) by reflexivity. now rewrite snd_times.
  - change (mul_last_log f (g :: g' :: bs)) with (lbind (mul_last_log f (g' :: bs)) (fun l => quiet (Ok (g :: l)))).
    rewrite (snd_bind _ _ (fun l => Ok (g :: l))) by reflexivity. now rewrite IH.
Qed.

Lemma snd_place_factor o bs f : snd (place_factor_log o bs f) = place_factor o bs f.
Proof. unfold place_factor_log, place_factor. rewrite <- snd_place_first. now destruct (place_first_log f o bs). Qed.

Lemma snd_mul_at f : forall bs i, snd (mul_at_log i f bs) = mul_at i f bs.
Proof.
  induction bs as [|g bs IH]; intros [|i]; try reflexivity; cbn [mul_at_log mul_at].
  - rewrite (snd_bind _ _ (fun b' => Ok (b' :: bs))) by reflexivity. now rewrite snd_times.
  - rewrite (snd_bind _ _ (fun l => Ok (g :: l))) by reflexivity. now rewrite IH.
Qed.

Lemma snd_add_evidence b o bs p : snd (add_evidence_log b o bs p) = add_evidence b o bs p.
Proof.
  unfold add_evidence_log, add_evidence. apply snd_bind. intros i. apply snd_bind. intros n.
  rewrite (snd_bind _ _ (fun ef => mul_at i ef bs)) by (intros; apply snd_mul_at). now rewrite snd_given.
Qed.

Lemma snd_process : forall k o bs, snd (process_log k o bs) = process k o bs.
Proof.
  induction k as [|k IH]; intros [|v o] [|g bs]; try reflexivity. cbn [process_log process].
  rewrite (snd_bind _ _ (fun tmp => rbind (match place_first tmp o bs with Some r => r | None => mul_last tmp bs end) (fun bs'' => process k o bs''))).
  - now rewrite snd_sum.
  - intros tmp. rewrite (snd_bind _ _ (fun bs'' => process k o bs'')) by (intros; apply IH). f_equal.
    rewrite <- snd_place_first. destruct (place_first_log tmp o bs); [reflexivity|apply snd_mul_last].
Qed.

Lemma snd_collect : forall bs acc, snd (collect_log acc bs) = collect acc bs.
Proof.
  induction bs as [|g bs IH]; intros acc; [reflexivity|]. cbn [collect_log collect]. rewrite (snd_bind _ _ (fun acc' => collect acc' bs)) by exact IH. now rewrite snd_times.
Qed.

Lemma snd_collect_neg k bs : snd (collect_neg_log k bs) = collect_neg k bs.
Proof.
  unfold collect_neg_log, collect_neg. destruct (Nat.ltb (length bs) k); [reflexivity|].
  rewrite (snd_bind _ _ (fun bs' => Ok (last bs' (trivial 1%Qc)))) by reflexivity. f_equal. apply snd_fold. intros l p. unfold mul_pair_log, mul_pair.
  rewrite (snd_bind _ _ (fun g => Ok (list_set (fst p) g l))) by reflexivity. now rewrite snd_times.
Qed.

Lemma core_erase b Q ev o : snd (bucket_core_log b Q ev o) = bucket_core b Q ev o.
Proof.
  unfold bucket_core_log, bucket_core. apply snd_bind. intros nodes.
  unfold lbind at 1. cbn [snd].
  rewrite (snd_bind _ _ (fun bs1 => rbind (foldM (add_evidence b o) ev bs1) (fun bs2 => rbind (process (length o - length Q) o bs2) (fun '(o', bs3) =>
    rbind (if Nat.leb (length Q) (length o) then match bs3 with [] => Err IndexError | f :: bs4 => collect f bs4 end else collect_neg (length Q - length o) bs3) (fun r => Ok (normalize r)))))).
  - now rewrite (snd_fold _ (place_factor o) (snd_place_factor o)).
  - intros bs1. rewrite <- (snd_fold _ _ (snd_add_evidence b o)). apply snd_bind. intros bs2. rewrite <- snd_process. apply snd_bind. intros [o' bs3].
    rewrite (snd_bind _ _ (fun r => Ok (normalize r))) by reflexivity. f_equal. destruct (Nat.leb _ _); [|apply snd_collect_neg]. destruct bs3; [reflexivity|apply snd_collect].
Qed.

Theorem bucket_erase b Q ev o : snd (bucket_log b Q ev o) = snd (bucket_marginals b Q ev o).
Proof. unfold bucket_log, bucket_marginals. destruct (move_to_end Q o) as [o' [e|]]; [reflexivity|]. apply core_erase. Qed.
End Erase.

(** ** Walks *)
Section Walks.
Variable b : bn.

Lemma related_sym u v : related b u v -> related b v u.
Proof. intros (n & H & U & V). now exists n. Qed.

Lemma through_mono S S' u v : incl S S' -> through b S u v -> through b S' u v.
Proof. intros I. induction 1 as [u v R|u w v R W _ IH]; [now apply through_one|]. apply through_via with w; auto. Qed.

Lemma through_join S u w v : through b S u w -> In w S -> through b S w v -> through b S u v.
Proof.
  induction 1 as [u w R|u x w R X _ IH]; intros W H; [now apply through_via with w|]. apply through_via with x; auto.
Qed.

Lemma through_sym S u v : through b S u v -> through b S v u.
Proof.
  induction 1 as [u v R|u w v R W _ IH]; [apply through_one; now apply related_sym|].
  apply through_join with w; auto. apply through_one. now apply related_sym.
Qed.

Lemma through_split S x u v : through b (S ++ [x]) u v -> through b S u v \/ through b S u x /\ through b S x v.
Proof.
  induction 1 as [u v R|u w v R W _ IH]; [left; now apply through_one|]. apply in_app_iff in W as [W|[<-|[]]].
  - destruct IH as [IH|[I1 I2]]; [left; now apply through_via with w|right]. split; [now apply through_via with w|exact I2].
  - right. split; [now apply through_one|]. destruct IH as [IH|[_ IH]]; exact IH.
Qed.
End Walks.

Section Scopes.
Context {SO : SetOrder}.
Variable b : bn.
Hypothesis WB : wf_bn b.
Notation dom := (values_of b).
Notation wf := (wf_factor dom).
Notation scoped := (scoped b).

Definition held (pre : list string) (v : string) (f : factor) : Prop := forall w, In w (vorder f) -> w = v \/ through b pre v w.
Inductive bounded (pre : list string) : list string -> list factor -> Prop :=
| bd_nil f : bounded pre [] [f]
| bd_cons v o f bs : held pre v f -> bounded pre o bs -> bounded pre (v :: o) (f :: bs).

(** A table that belongs to a place in the order. *)
Definition fits (pre o : list string) (f : factor) : Prop :=
  wf f /\ (vorder f = [] \/ exists o1 v o2, o = o1 ++ v :: o2 /\ forall w, In w (vorder f) -> cluster b pre v o2 w).

Lemma fits_later pre v o f : fits pre o f -> fits pre (v :: o) f.
Proof. intros [W [E|(o1 & x & o2 & E & H)]]; split; auto. right. exists (v :: o1), x, o2. split; [now rewrite E|exact H]. Qed.

Lemma times_log f g h : fmul f g = Ok h -> times f g = ([Times h], Ok h).
Proof. intros E. unfold times. now rewrite E. Qed.

Definition clique (pre : list string) (f : factor) : Prop := forall u w, In u (vorder f) -> In w (vorder f) -> u = w \/ through b pre u w.

Definition grown (bs bs' : list factor) : Prop := forall g, In g bs -> exists g', In g' bs' /\ incl (vorder g) (vorder g').
Definition inside (f : factor) (bs : list factor) : Prop := exists g, In g bs /\ incl (vorder f) (vorder g).

Lemma grown_refl bs : grown bs bs.
Proof. intros g G. exists g. split; [exact G|apply incl_refl]. Qed.
Lemma grown_trans x y z : grown x y -> grown y z -> grown x z.
Proof. intros A B g G. destruct (A g G) as (g1 & G1 & I1). destruct (B g1 G1) as (g2 & G2 & I2). exists g2. split; [exact G2|eapply incl_tran; eassumption]. Qed.
Lemma inside_grown f x y : inside f x -> grown x y -> inside f y.
Proof. intros (g & G & I) H. destruct (H g G) as (g1 & G1 & I1). exists g1. split; [exact G1|eapply incl_tran; eassumption]. Qed.

Lemma mul_fits pre v o g f : wf g -> wf f -> incl (vorder g) (v :: o) -> incl (vorder f) (v :: o) -> held pre v g -> In v (vorder f) -> clique pre f ->
  exists h, fmul g f = Ok h /\ wf h /\ incl (vorder h) (v :: o) /\ held pre v h /\ fits pre (v :: o) h /\ (forall w, In w (vorder h) <-> In w (vorder g) \/ In w (vorder f)).
Proof.
  intros Wg Wf Ig If Hg Vf CF. destruct (mul_scoped b g f (v :: o) Wg Wf Ig If) as (h & E & W & I & O & _). exists h.
  assert (Hh : held pre v h) by (intros w Hw; apply O in Hw as [Hw|Hw]; [now apply Hg|destruct (CF v w Vf Hw); auto]).
  do 4 (split; [assumption|]). split; [|exact O]. split; [exact W|right]. exists [], v, o. split; [reflexivity|]. intros w Hw. unfold cluster.
  destruct (Hh w Hw) as [->|T]; [now left|]. destruct (I w Hw) as [<-|Hw']; [now left|right; now split].
Qed.

Lemma place_log pre f o bs : scoped o bs -> bounded pre o bs -> wf f -> incl (vorder f) o -> clique pre f ->
  exists l bs', (match place_first_log f o bs with Some r => r | None => mul_last_log f bs end) = (l, Ok bs') /\
    scoped o bs' /\ bounded pre o bs' /\ grown bs bs' /\ inside f bs' /\ sums l = [] /\ (forall e h, In e l -> In h (tables e) -> fits pre o h) /\
    (vorder f <> [] -> place_first_log f o bs = Some (l, Ok bs')).
Proof.
  intros S. revert f. induction S as [g Wg Eg|v o g bs Wg Ig S IH]; intros f B Wf If CF; cbn [place_first_log mul_last_log].
  - assert (Ef : vorder f = []) by (destruct (vorder f) as [|x l]; [reflexivity|destruct (If x); left; reflexivity]).
    destruct (mul_scoped b g f [] Wg Wf) as (h & E & W & I & O & _); [rewrite Eg; apply incl_refl|exact If|].
    assert (Eh : vorder h = []) by (destruct (vorder h) as [|x l]; [reflexivity|destruct (I x); left; reflexivity]).
    rewrite (times_log _ _ _ E). unfold lbind. cbn [snd fst quiet app]. exists [Times h], [h]. split; [reflexivity|]. split; [now constructor|]. split; [constructor|].
    split; [intros x [<-|[]]; exists h; split; [now left|rewrite Eg; intros w []]|].
    split; [exists h; split; [now left|rewrite Ef; intros w []]|]. split; [reflexivity|]. split; [|intros N; contradiction].
    intros e x [<-|[]] [<-|[]]. split; [exact W|now left].
  - inversion B as [|? ? ? ? Hg Bs]; subst. destruct (fcontains v f) eqn:C.
    + assert (Vf : In v (vorder f)) by now apply (fcontains_spec dom f v Wf).
      destruct (mul_fits pre v o g f Wg Wf Ig If Hg Vf CF) as (h & E & W & I & Hh & Fh & O).
      rewrite (times_log _ _ _ E). unfold lbind. cbn [snd fst quiet app]. exists [Times h], (h :: bs). split; [reflexivity|]. split; [now constructor|]. split; [now constructor|].
      split; [intros x [<-|X]; [exists h; split; [now left|intros w; rewrite O; tauto]|exists x; split; [now right|apply incl_refl]]|].
      split; [exists h; split; [now left|intros w; rewrite O; tauto]|]. split; [reflexivity|]. split; [|reflexivity].
      intros e x [<-|[]] [<-|[]]. exact Fh.
    + assert (Nv : ~ In v (vorder f)) by (intros H; apply (fcontains_spec dom f v Wf) in H; congruence).
      assert (If' : incl (vorder f) o) by (intros w Hw; destruct (If w Hw) as [<-|H]; [contradiction|exact H]).
      destruct (IH f Bs Wf If' CF) as (l & bs' & E & S' & B' & G & IN & SU & T & PF). exists l, (g :: bs').
      assert (HG : grown (g :: bs) (g :: bs')).
      { intros x [<-|X]; [exists g; split; [now left|apply incl_refl]|]. destruct (G x X) as (x' & X' & I'). exists x'. split; [now right|exact I']. }
      assert (HI : inside f (g :: bs')) by (destruct IN as (x & X & I'); exists x; split; [now right|exact I']).
      split; [|split; [now constructor|]; split; [now constructor|]; split; [exact HG|]; split; [exact HI|]; split; [exact SU|]; split].
      * destruct (place_first_log f o bs) as [r|]; [rewrite E; unfold lbind; cbn [snd fst quiet app]; now rewrite app_nil_r|].
        destruct bs as [|g' bs'']; [inversion S|]. change (lbind (mul_last_log f (g' :: bs'')) (fun l0 => quiet (Ok (g :: l0))) = (l, Ok (g :: bs'))).
        rewrite E. unfold lbind. cbn [snd fst quiet app]. now rewrite app_nil_r.
      * intros e h He Hh. apply fits_later. now apply (T e h).
      * intros N. rewrite (PF N). unfold lbind. cbn [snd fst quiet app]. now rewrite app_nil_r.
Qed.

Lemma first_fits pre f : wf f -> clique pre f -> forall o, incl (vorder f) o -> fits pre o f.
Proof.
  intros Wf CF. induction o as [|v o IH]; intros I.
  - split; [exact Wf|left]. destruct (vorder f) as [|x l]; [reflexivity|destruct (I x); now left].
  - destruct (in_dec string_dec v (vorder f)) as [V|V].
    + split; [exact Wf|right]. exists [], v, o. split; [reflexivity|]. intros w Hw. destruct (CF v w V Hw) as [->|T]; [now left|]. destruct (I w Hw) as [<-|J]; [now left|right; now split].
    + apply fits_later, IH. intros w Hw. destruct (I w Hw) as [<-|J]; [contradiction|exact J].
Qed.

(** ** Setting up the buckets *)
Lemma from_clique pre n : In n (bnodes b) -> clique pre (from_node n).
Proof. intros Hn u w U W. right. apply through_one. now exists n. Qed.

Definition fine (pre o : list string) (l : list event) : Prop := sums l = [] /\ forall e h, In e l -> In h (tables e) -> fits pre o h.

Lemma sums_app l l' : sums (l ++ l') = sums l ++ sums l'.
Proof. induction l as [|[f|f|v f g] l IH]; cbn [app sums]; [reflexivity| | |]; rewrite IH; reflexivity. Qed.

Lemma fine_app pre o l l' : fine pre o l -> fine pre o l' -> fine pre o (l ++ l').
Proof. intros [A A'] [B B']. split; [now rewrite sums_app, A, B|]. intros e h He. apply in_app_iff in He as [He|He]; [now apply A'|now apply B']. Qed.

Lemma nodes_log o nodes : incl nodes (bnodes b) -> incl (bnames b) o -> forall bs, scoped o bs -> bounded [] o bs ->
  exists l bs', lfold (place_factor_log o) (map from_node nodes) bs = (l, Ok bs') /\ scoped o bs' /\ bounded [] o bs' /\ grown bs bs' /\
    (forall n, In n nodes -> inside (from_node n) bs') /\ fine [] o l.
Proof.
  induction nodes as [|n nodes IH]; intros I J bs S B; cbn [map lfold].
  - exists [], bs. split; [reflexivity|]. split; [exact S|]. split; [exact B|]. split; [apply grown_refl|]. split; [intros n []|]. split; [reflexivity|intros e h []].
  - assert (Hn : In n (bnodes b)) by (apply I; now left).
    assert (Io : incl (vorder (from_node n)) o) by (intros v Hv; apply J; eapply from_node_scope; eassumption).
    destruct (place_log [] (from_node n) o bs S B (wf_from_node b WB n Hn) Io (from_clique [] n Hn)) as (l1 & bs1 & _ & S1 & B1 & G1 & N1 & SU & T & PF).
    unfold place_factor_log at 1. rewrite PF by discriminate. unfold lbind. cbn [snd fst].
    destruct (IH (fun x Hx => I x (or_intror Hx)) J bs1 S1 B1) as (l2 & bs2 & E & S2 & B2 & G2 & N2 & F2). rewrite E. cbn [fst snd].
    exists (l1 ++ l2), bs2. split; [reflexivity|]. split; [exact S2|]. split; [exact B2|]. split; [eapply grown_trans; eassumption|].
    split; [intros m [<-|Hm]; [now apply inside_grown with bs1|now apply N2]|]. apply fine_app; [now split|exact F2].
Qed.

Lemma at_log ef o bs v : NoDup o -> scoped o bs -> bounded [] o bs -> In v o -> wf ef -> vorder ef = [v] ->
  exists l bs', mul_at_log (idx v o) ef bs = (l, Ok bs') /\ scoped o bs' /\ bounded [] o bs' /\ grown bs bs' /\ fine [] o l.
Proof.
  intros ND S. induction S as [g Wg Eg|x o g bs Wg Ig S IH]; intros B V We Oe; [destruct V|]. inversion B as [|? ? ? ? Hg Bs]; subst. inversion ND; subst.
  unfold idx. cbn [index_of]. destruct (String.eqb_spec v x) as [->|N].
  - assert (If : incl (vorder ef) (x :: o)) by (rewrite Oe; intros w [<-|[]]; now left).
    destruct (mul_fits [] x o g ef Wg We Ig If Hg) as (h & E & W & I & Hh & Fh & O); [rewrite Oe; now left|intros u w U W; rewrite Oe in U, W; destruct U as [<-|[]], W as [<-|[]]; now left|].
    cbn [mul_at_log]. rewrite (times_log _ _ _ E). unfold lbind. cbn [snd fst quiet app]. exists [Times h], (h :: bs). split; [reflexivity|]. split; [now constructor|]. split; [now constructor|].
    split; [intros y [<-|Y]; [exists h; split; [now left|intros w; rewrite O; tauto]|exists y; split; [now right|apply incl_refl]]|]. split; [reflexivity|].
    intros e y [<-|[]] [<-|[]]. exact Fh.
  - destruct V as [->|V]; [congruence|]. destruct (IH ltac:(assumption) Bs V We Oe) as (l & bs' & E & S' & B' & G & SU & T). unfold idx in E.
    exists l, (g :: bs'). split; [|split; [now constructor|]; split; [now constructor|]; split; [|split; [exact SU|]]].
    + destruct (index_of v o) as [i|] eqn:Ei; [|apply index_of_None in Ei; contradiction]. cbn [mul_at_log]. rewrite E. unfold lbind. cbn [snd fst quiet app]. now rewrite app_nil_r.
    + intros y [<-|Y]; [exists g; split; [now left|apply incl_refl]|]. destruct (G y Y) as (y' & Y' & I'). exists y'. split; [now right|exact I'].
    + intros e h He Hh. apply fits_later. now apply (T e h).
Qed.

Lemma evidence_log ev o : ev_ok b ev -> NoDup o -> incl (bnames b) o -> forall l, incl l ev -> incl (dkeys l) (bnames b) -> forall bs, scoped o bs -> bounded [] o bs ->
  exists lg bs', lfold (add_evidence_log b o) l bs = (lg, Ok bs') /\ scoped o bs' /\ bounded [] o bs' /\ grown bs bs' /\ fine [] o lg.
Proof.
  intros EV ND J. induction l as [|[v e] l IH]; intros I K bs S B; cbn [lfold].
  - exists [], bs. split; [reflexivity|]. split; [exact S|]. split; [exact B|]. split; [apply grown_refl|]. split; [reflexivity|intros x h []].
  - assert (Hv : In v (bnames b)) by (apply K; now left). apply (in_bnames b) in Hv as (n & Hn & En). subst v.
    assert (Ee : dget (dn_name n) ev = Some e) by (apply In_dget; [apply EV|]; apply I; now left).
    destruct (as_evidence_spec b WB ev EV n e Hn Ee) as (ef & E1 & We & Oe & _). assert (Ho : In (dn_name n) o) by (apply J, in_map, Hn).
    unfold add_evidence_log at 1. cbn [fst snd]. rewrite py_index_ok by exact Ho. rewrite (get_node_ok b WB n Hn).
    destruct (at_log ef o bs (dn_name n) ND S B Ho We Oe) as (l1 & bs1 & E2 & S1 & B1 & G1 & F1).
    unfold lbind. cbn [snd fst quiet app given]. rewrite E1. cbn [snd fst given app]. rewrite E2. cbn [snd fst].
    destruct (IH (fun x Hx => I x (or_intror Hx)) (fun x Hx => K x (or_intror Hx)) bs1 S1 B1) as (l2 & bs2 & E & S2 & B2 & G2 & F2). rewrite E. cbn [fst snd].
    exists ((Given ef :: l1) ++ l2), bs2. split; [reflexivity|]. split; [exact S2|]. split; [exact B2|]. split; [eapply grown_trans; eassumption|].
    apply fine_app; [|exact F2]. apply (fine_app [] o [Given ef] l1); [|exact F1]. split; [reflexivity|]. intros x h [<-|[]] [<-|[]].
    apply first_fits; [exact We| |rewrite Oe; intros w [<-|[]]; exact Ho]. intros u w U W; rewrite Oe in U, W; destruct U as [<-|[]], W as [<-|[]]; now left.
Qed.

(** ** Summing out *)
Definition present (o : list string) (bs : list factor) : Prop := forall w, In w o -> exists f, In f bs /\ In w (vorder f).
Definition joined (pre o : list string) (bs : list factor) : Prop :=
  forall u w, In u o -> In w o -> u <> w -> through b pre u w -> exists f, In f bs /\ In u (vorder f) /\ In w (vorder f).

Definition fits2 (pre o : list string) (f : factor) : Prop :=
  wf f /\ (vorder f = [] \/ exists o1 v o2, o = o1 ++ v :: o2 /\ forall w, In w (vorder f) -> cluster b (pre ++ o1) v o2 w).

Lemma fits_fits2 pre o f : fits pre o f -> fits2 pre o f.
Proof.
  intros [W [E|(o1 & v & o2 & E & H)]]; split; auto. right. exists o1, v, o2. split; [exact E|]. intros w Hw. destruct (H w Hw) as [->|[A T]]; [now left|right]. split; [exact A|].
  revert T. apply through_mono. intros x X. apply in_app_iff. now left.
Qed.
Lemma fits2_later pre v o f : fits2 (pre ++ [v]) o f -> fits2 pre (v :: o) f.
Proof.
  intros [W [E|(o1 & x & o2 & E & H)]]; split; auto. right. exists (v :: o1), x, o2. split; [now rewrite E|]. intros w Hw. specialize (H w Hw). now rewrite <- app_assoc in H.
Qed.

Lemma first_bucket v o f bs g : NoDup (v :: o) -> scoped (v :: o) (f :: bs) -> In g (f :: bs) -> In v (vorder g) -> g = f.
Proof.
  intros ND S [<-|G] V; [reflexivity|]. inversion S; subst. inversion ND; subst. exfalso. eapply H1. eapply (scoped_scope b); eassumption.
Qed.

Lemma bounded_mono pre pre' o bs : incl pre pre' -> bounded pre o bs -> bounded pre' o bs.
Proof.
  intros I. induction 1 as [f|v o f bs H B IH]; constructor; auto. intros w Hw. destruct (H w Hw) as [->|T]; [now left|right; now apply through_mono with pre].
Qed.

Lemma process_scopes k : forall pre o bs, NoDup o -> k <= length o -> scoped o bs -> bounded pre o bs -> present o bs -> joined pre o bs ->
  exists l bs', process_log k o bs = (l, Ok (skipn k o, bs')) /\ scoped (skipn k o) bs' /\ map fst (sums l) = firstn k o /\
    (forall v f, In (v, f) (sums l) -> exists o1 o2, o = o1 ++ v :: o2 /\ forall u, In u (vorder f) <-> cluster b (pre ++ o1) v o2 u) /\
    (forall e h, In e l -> In h (tables e) -> fits2 pre o h).
Proof.
  induction k as [|k IH]; intros pre o bs ND L S B P J.
  - exists [], bs. cbn [skipn firstn]. split; [destruct o; reflexivity|]. split; [exact S|]. split; [reflexivity|]. split; [intros v f []|intros e h []].
  - assert (S0 := S). destruct S as [f W E|v o f bs W I S]; [cbn in L; lia|]. inversion ND as [|? ? Nv ND']; subst. inversion B as [|? ? ? ? Hf Bs]; subst.
    assert (Hv : In v (vorder f)) by (destruct (P v (or_introl eq_refl)) as (g & G & V); rewrite (first_bucket v o f bs g ND S0 G V) in V; exact V).
    assert (EX : forall u, In u (vorder f) <-> cluster b pre v o u).
    { intros u. unfold cluster. split.
      - intros U. destruct (Hf u U) as [->|T]; [now left|]. destruct (I u U) as [<-|O]; [now left|right; now split].
      - intros [->|[O T]]; [exact Hv|]. assert (NE : v <> u) by (intros ->; contradiction).
        destruct (J v u (or_introl eq_refl) (or_intror O) NE T) as (g & G & V & U). rewrite (first_bucket v o f bs g ND S0 G V) in U. exact U. }
    destruct (marginalize1_spec dom f v W Hv) as (tmp & E1 & W1 & O1 & _). cbn [process_log]. unfold sum_out. rewrite E1.
    assert (OT : forall w, In w (vorder tmp) <-> In w (vorder f) /\ w <> v) by (intros w; rewrite O1; apply remove1_In; apply W).
    assert (It : incl (vorder tmp) o).
    { intros w Hw. apply OT in Hw as [Hw n]. destruct (I w Hw) as [<-|H]; [congruence|exact H]. }
    assert (Bs' : bounded (pre ++ [v]) o bs) by (apply bounded_mono with pre; [intros x X; apply in_app_iff; now left|exact Bs]).
    assert (M : forall x y, through b pre x y -> through b (pre ++ [v]) x y) by (intros x y; apply through_mono; intros z Z; apply in_app_iff; now left).
    assert (CT : clique (pre ++ [v]) tmp).
    { intros u w U X. apply OT in U as [U U'], X as [X X']. right. apply EX in U as [->|[_ U]]; [congruence|]. apply EX in X as [->|[_ X]]; [congruence|].
      apply through_join with v; [now apply through_sym, M|apply in_app_iff; right; now left|now apply M]. }
    destruct (place_log (pre ++ [v]) tmp o bs S Bs' W1 It CT) as (l1 & bs1 & E2 & S1 & B1 & G1 & N1 & SU & T1 & _).
    unfold lbind. cbn [snd fst]. rewrite E2. cbn [snd fst].
    assert (P1 : present o bs1).
    { intros w Hw. destruct (P w (or_intror Hw)) as (g & [<-|G] & V).
      - destruct N1 as (h & H & IH'). exists h. split; [exact H|]. apply IH', OT. split; [exact V|]. intros ->. contradiction.
      - destruct (G1 g G) as (h & H & IH'). exists h. split; [exact H|now apply IH']. }
    assert (J1 : joined (pre ++ [v]) o bs1).
    { intros u w U X NE T. assert (UV : u <> v) by (intros ->; contradiction). assert (XV : w <> v) by (intros ->; contradiction).
      assert (TM : In u (vorder f) -> In w (vorder f) -> exists g, In g bs1 /\ In u (vorder g) /\ In w (vorder g)).
      { intros A C. destruct N1 as (h & H & IH'). exists h. split; [exact H|]. split; apply IH', OT; now split. }
      destruct (through_split b pre v u w T) as [T'|[T1' T2']].
      - destruct (J u w (or_intror U) (or_intror X) NE T') as (g & [<-|G] & A & C); [now apply TM|]. destruct (G1 g G) as (h & H & IH'). exists h. split; [exact H|]. split; now apply IH'.
      - apply TM; apply EX; right; split; auto. now apply through_sym. }
    destruct (IH (pre ++ [v]) o bs1 ND') as (l2 & bs2 & E3 & S3 & M3 & X3 & T3); [cbn in L; lia|exact S1|exact B1|exact P1|exact J1|]. rewrite E3. cbn [fst snd].
    exists ([Summed v f tmp] ++ l1 ++ l2), bs2. cbn [skipn firstn]. split; [reflexivity|]. split; [exact S3|]. rewrite !sums_app, SU. cbn [sums app map fst]. split; [now rewrite M3|]. split.
    + intros x g [H|H].
      * inversion H; subst. exists [], o. split; [reflexivity|]. intros u. rewrite app_nil_r. apply EX.
      * destruct (X3 x g H) as (o1 & o2 & EO & HX). exists (v :: o1), o2. split; [now rewrite EO|]. intros u. rewrite HX, <- app_assoc. reflexivity.
    + intros e h [<-|He] Hh.
      * assert (FF : fits2 pre (v :: o) f) by (split; [exact W|right]; exists [], v, o; split; [reflexivity|]; intros w Hw; rewrite app_nil_r; now apply EX).
        assert (FT : fits2 pre (v :: o) tmp) by (split; [exact W1|right]; exists [], v, o; split; [reflexivity|]; intros w Hw; rewrite app_nil_r; apply EX; now apply OT in Hw).
        destruct Hh as [<-|[<-|[]]]; assumption.
      * apply fits2_later. apply in_app_iff in He as [He|He]; [apply fits_fits2; now apply (T1 e)|now apply (T3 e)].
Qed.

Lemma collect_scopes Q bs : forall acc, wf acc -> Forall wf bs -> incl (vorder acc) Q -> (forall f, In f bs -> incl (vorder f) Q) ->
  exists l h, collect_log acc bs = (l, Ok h) /\ sums l = [] /\ (forall e x, In e l -> In x (tables e) -> wf x /\ incl (vorder x) Q).
Proof.
  induction bs as [|f bs IH]; intros acc W F I J; cbn [collect_log].
  - exists [], acc. split; [reflexivity|]. split; [reflexivity|]. intros e x [].
  - inversion F; subst. destruct (mul_scoped b f acc Q) as (h1 & E1 & W1 & I1 & O1 & _); try assumption; [apply J; now left|].
    rewrite (times_log _ _ _ E1). unfold lbind. cbn [snd fst]. destruct (IH h1 W1) as (l & h & E & SU & T); try assumption; [intros g G; apply J; now right|].
    rewrite E. cbn [fst snd]. exists ([Times h1] ++ l), h. split; [reflexivity|]. split; [exact SU|]. intros e x [<-|He]; [intros [<-|[]]; now split|now apply T].
Qed.

(** A place in the whole order is a place before the query, or in it. *)
Lemma place_before (front Q : list string) : forall o1 v o2, front ++ Q = o1 ++ v :: o2 -> (exists o2', front = o1 ++ v :: o2' /\ o2 = o2' ++ Q) \/ incl (v :: o2) Q.
Proof.
  induction front as [|x front IH]; intros o1 v o2 E.
  - right. intros w Hw. cbn in E. rewrite E. apply in_app_iff. now right.
  - destruct o1 as [|y o1]; cbn in E; inversion E; subst.
    + left. now exists front.
    + destruct (IH o1 v o2 H1) as [(o2' & E1 & E2)|I]; [left; exists o2'; split; [now rewrite E1|exact E2]|now right].
Qed.

Lemma apart_query (front Q : list string) v : NoDup (front ++ Q) -> In v front -> In v Q -> False.
Proof. induction front as [|y l IH]; intros ND A B; [destruct A|]. cbn in ND. inversion ND as [|? ? N1 N2]; subst. destruct A as [->|A]; [apply N1, in_app_iff; now right|now apply IH]. Qed.

(** ** All of it *)
Theorem bucket_scopes Q ev front : ev_ok b ev -> incl (dkeys ev) (bnames b) -> Permutation (bnames b) (front ++ Q) ->
  let l := fst (bucket_core_log b Q ev (front ++ Q)) in
  map fst (sums l) = front /\
  (forall v f, In (v, f) (sums l) -> exists o1 o2, front = o1 ++ v :: o2 /\ forall u, In u (vorder f) <-> cluster b o1 v (o2 ++ Q) u) /\
  (forall e h, In e l -> In h (tables e) -> wf h /\
     ((exists o1 v o2, front = o1 ++ v :: o2 /\ forall u, In u (vorder h) -> cluster b o1 v (o2 ++ Q) u) \/ incl (vorder h) Q)).
Proof.
  intros EV K P l. set (o := front ++ Q) in *.
  assert (NDo : NoDup o) by (apply (Permutation_NoDup P), WB).
  assert (Ino : forall v, In v (bnames b) <-> In v o) by (intros v; split; apply Permutation_in; [exact P|symmetry; exact P]).
  assert (EN : exists nodes, mapM (get_node b) o = Ok nodes /\ incl nodes (bnodes b) /\ incl (bnodes b) nodes).
  { assert (G : forall l, incl l (bnames b) -> exists nodes, mapM (get_node b) l = Ok nodes /\ map dn_name nodes = l /\ incl nodes (bnodes b)).
    { induction l0 as [|v l0 IH]; intros Il; cbn [mapM].
      - exists []. repeat split. intros x [].
      - destruct IH as (nodes & E & M & In_); [intros w Hw; apply Il; now right|].
        assert (Hv : In v (bnames b)) by (apply Il; now left).
        apply (in_bnames b) in Hv as (n & Hn & En). exists (n :: nodes).
        rewrite <- En at 1. rewrite (get_node_ok b WB n Hn). cbn [rbind]. rewrite E. cbn.
        split; [reflexivity|]. split; [rewrite M, En; reflexivity|]. intros x [<-|Hx]; auto. }
    destruct (G o) as (nodes & E & M & In_); [intros v Hv; apply Ino, Hv|]. exists nodes. split; [exact E|]. split; [exact In_|].
    intros n Hn. assert (Hm : In (dn_name n) (map dn_name nodes)) by (rewrite M; apply Ino, in_map, Hn).
    apply in_map_iff in Hm as (m & Em & Hm). assert (F1 := get_node_ok b WB n Hn). assert (F2 := get_node_ok b WB m (In_ m Hm)). rewrite Em in F2. congruence. }
  destruct EN as (nodes & EN & NI & NI').
  assert (BI : bounded [] o (repeat (trivial 1%Qc) (S (length o)))).
  { clear. induction o as [|v o IH]; cbn; constructor; [intros w []|exact IH]. }
  destruct (nodes_log o nodes NI (fun v => proj1 (Ino v)) _ (scoped_init b o) BI) as (l1 & bs1 & E1 & S1 & B1 & _ & N1 & F1).
  destruct (evidence_log ev o EV NDo (fun v => proj1 (Ino v)) ev (incl_refl _) K bs1 S1 B1) as (l2 & bs2 & E2 & S2 & B2 & G2 & F2).
  assert (P2 : present o bs2).
  { intros w Hw. apply Ino in Hw. apply (in_bnames b) in Hw as (n & Hn & <-). destruct (inside_grown _ _ _ (N1 n (NI' n Hn)) G2) as (g & G & I). exists g. split; [exact G|]. apply I. now left. }
  assert (J2 : joined [] o bs2).
  { intros u w _ _ NE T. destruct T as [u w (n & Hn & U & X)|u x w _ []]. destruct (inside_grown _ _ _ (N1 n (NI' n Hn)) G2) as (g & G & I). exists g. split; [exact G|]. split; now apply I. }
  assert (Lo : length o = length front + length Q) by (unfold o; rewrite app_length; reflexivity).
  destruct (process_scopes (length front) [] o bs2 NDo ltac:(lia) S2 B2 P2 J2) as (l3 & bs3 & E3 & S3 & M3 & X3 & T3).
  assert (Esk : skipn (length front) o = Q) by (unfold o; rewrite skipn_app, skipn_all, Nat.sub_diag; reflexivity).
  assert (Efn : firstn (length front) o = front) by (unfold o; rewrite firstn_app, Nat.sub_diag, firstn_all; cbn; apply app_nil_r).
  rewrite Esk, Efn in *. assert (SC := scoped_scope b _ _ S3). assert (WW := scoped_wf b _ _ S3). destruct bs3 as [|f bs4]; [inversion S3|]. pose proof (Forall_inv WW) as Wf0. pose proof (Forall_inv_tail WW) as Wf1.
  destruct (collect_scopes Q bs4 f) as (l4 & h & E4 & SU4 & T4); try assumption.
  { intros v Hv. exact (SC f v (or_introl eq_refl) Hv). } { intros g Hg v Hv. exact (SC g v (or_intror Hg) Hv). }
  assert (EL : l = map Given (map from_node nodes) ++ l1 ++ l2 ++ l3 ++ l4).
  { unfold l, bucket_core_log. rewrite EN. unfold lbind at 1. cbn [quiet fst snd app]. unfold lbind at 1. cbn [fst snd]. f_equal. rewrite E1. unfold lbind at 1. cbn [fst snd].
    f_equal. rewrite E2. unfold lbind at 1. cbn [fst snd]. f_equal. replace (length o - length Q) with (length front) by lia. rewrite E3. unfold lbind at 1. cbn [fst snd]. f_equal.
    replace (Nat.leb (length Q) (length o)) with true by (symmetry; apply Nat.leb_le; lia). rewrite E4. unfold lbind. cbn [fst snd quiet]. apply app_nil_r. }
  assert (SG : forall fs, sums (map Given fs) = []) by (induction fs; [reflexivity|assumption]).
  assert (SL : sums l = sums l3) by (rewrite EL, !sums_app, SG, (proj1 F1), (proj1 F2), SU4; cbn [app]; apply app_nil_r).
  assert (PL : forall o1 v o2, o = o1 ++ v :: o2 -> (exists o2', front = o1 ++ v :: o2' /\ o2 = o2' ++ Q) \/ incl (v :: o2) Q).
  { exact (place_before front Q). }
  assert (FF : forall x, fits2 [] o x -> wf x /\ ((exists o1 v o2, front = o1 ++ v :: o2 /\ forall u, In u (vorder x) -> cluster b o1 v (o2 ++ Q) u) \/ incl (vorder x) Q)).
  { intros x [W [E|(o1 & v & o2 & E & H)]]; (split; [exact W|]).
    - right. rewrite E. intros w [].
    - destruct (PL o1 v o2 E) as [(o2' & E1' & ->)|I]; [left; now exists o1, v, o2'|right].
      intros w Hw. destruct (H w Hw) as [->|[O _]]; apply I; [now left|now right]. }
  split; [now rewrite SL|]. split.
  - intros v g H. rewrite SL in H. destruct (X3 v g H) as (o1 & o2 & E & HX). cbn [app] in HX. destruct (PL o1 v o2 E) as [(o2' & E1' & ->)|I].
    + exists o1, o2'. now split.
    + exfalso. assert (VF : In v front) by (rewrite <- M3; apply in_map_iff; now exists (v, g)). exact (apart_query front Q v NDo VF (I v (or_introl eq_refl))).
  - intros e x He Hx. rewrite EL in He. apply in_app_iff in He as [He|He].
    { apply in_map_iff in He as (g & <- & Hg). apply in_map_iff in Hg as (n & <- & Hn). destruct Hx as [<-|[]]. apply FF, fits_fits2.
      apply first_fits; [apply wf_from_node; auto|apply from_clique; auto|]. intros v Hv. apply Ino. eapply from_node_scope; [exact WB|apply NI, Hn|exact Hv]. }
    apply in_app_iff in He as [He|He]; [apply FF, fits_fits2; now apply (proj2 F1 e)|].
    apply in_app_iff in He as [He|He]; [apply FF, fits_fits2; now apply (proj2 F2 e)|].
    apply in_app_iff in He as [He|He]; [apply FF; now apply (T3 e)|].
    destruct (T4 e x He Hx) as [W I]. split; [exact W|now right].
Qed.
End Scopes.
