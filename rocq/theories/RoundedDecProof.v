(** Elimination of variables from joint factors in rounded arithmetic. *)
From Verif Require Import Base BaseFacts NDArray NDArrayFacts SumCalc Factor FactorFacts Spec SpecFacts Exact Node Network Decision DecVE
  Rounded RoundedSpec RoundedProof RoundedTree RoundedDec RoundedDecSpec RoundedDecPure.
From Coq Require Import Field.

(** ** The algorithms over exact operations are those of Decision.v *)
Section Same.
Context {SO : SetOrder} {BO : BagOrder}.

Theorem dec_by_exact :
  (forall w ds, expected_utility_by fmul fadd marginalize1 finvert w ds = expected_utility w ds) /\
  (forall w order fixed, optimal_decisions_by fmul fadd marginalize1 finvert fully_mixed w order fixed = optimal_decisions w order fixed).
Proof. split; reflexivity. Qed.
End Same.

(** ** Rounded joint factors and the functions they stand for *)
Record tj := mkTJ { tf : jfactor; gp : asg -> Qc; gu : asg -> Qc; ga : asg -> Qc; nj : nat; nk : nat }.

Section Elim.
Variable dom : string -> list string.
Variable vars : list string.
Context {RD : Rounding} {SY : Symmetric RD} {AD : Adding} {SO : SetOrder} {BO : BagOrder}.
Notation card := (card dom).
Notation rcombine_two := (combine_two_by rmul raddf).
Notation rcombine := (combine_factors_by rmul raddf).
Notation rmarginalize := (marginalize_joint_by rmul rmarg rinvert).
Notation reliminate := (eliminate_by rmul raddf rmarg rinvert).

Record tracked (t : tj) : Prop := {
  tk_wf : wf_jf dom vars (tf t);
  tk_p : forall a, inrange card vars a -> close (nj t) (gp t a) (feval (fst (tf t)) a);
  tk_u : forall a, inrange card vars a -> tri (nk t) (gu t a) (ga t a) (feval (snd (tf t)) a);
  tk_dp : deps (vorder (fst (tf t))) (gp t);
  tk_du : deps (vorder (fst (tf t))) (gu t);
  tk_da : deps (vorder (fst (tf t))) (ga t)
}.

Definition PG (l : list tj) (a : asg) : Qc := qprod (map (fun t => gp t a) l).
Definition SG (X : tj -> asg -> Qc) (l : list tj) (a : asg) : Qc := qsum (map (fun t => X t a) l).
Definition cnt (l : list tj) : nat := sumn (map (fun t => S (nj t)) l).

Lemma tracked_ext h p u x p' u' x' j k : (forall a, p a = p' a) -> (forall a, u a = u' a) -> (forall a, x a = x' a) ->
  tracked (mkTJ h p u x j k) -> tracked (mkTJ h p' u' x' j k).
Proof.
  intros E1 E2 E3 [A B C D1 D2 D3]. cbn in *. constructor; cbn; [exact A| | | | |].
  - intros a R. rewrite <- E1. apply B, R. - intros a R. rewrite <- E2, <- E3. apply C, R.
  - intros a b H. rewrite <- !E1. apply D1, H. - intros a b H. rewrite <- !E2. apply D2, H. - intros a b H. rewrite <- !E3. apply D3, H.
Qed.

Lemma range_in l a : incl l vars -> inrange card vars a -> inrange card l a.
Proof. intros I R v Hv. apply R, I, Hv. Qed.

Lemma rcombine_two_ok s t K : tracked s -> tracked t -> nk s <= K -> nk t <= K -> exists h, rcombine_two (tf s) (tf t) = Ok h /\
  tracked (mkTJ h (fun a => gp s a * gp t a)%Qc (fun a => gu s a + gu t a)%Qc (fun a => ga s a + ga t a)%Qc (nj s + nj t + 1) (K + 1)) /\
  forall v, In v (vorder (fst h)) <-> In v (vorder (fst (tf s))) \/ In v (vorder (fst (tf t))).
Proof.
  intros A B LA LB. assert (F := tk_wf _ A). assert (G := tk_wf _ B). unfold combine_two_by.
  destruct (fcombine_spec dom (fun x y => rnd (x * y)%Qc) (fst (tf s)) (fst (tf t)) (wj_p _ _ _ F) (wj_p _ _ _ G)) as (p & Ep & Wp & _ & Op & Vp).
  destruct (fcombine_spec dom (fun x y => rnd (x + y)%Qc) (snd (tf s)) (snd (tf t)) (wj_u _ _ _ F) (wj_u _ _ _ G)) as (u & Eu & Wu & _ & Ou & Vu).
  unfold rmul, raddf. rewrite Ep, Eu. cbn [rbind].
  assert (IV : incl (vorder p) vars).
  { intros v Hv. apply Op in Hv as [H|H]; [apply (wj_vars _ _ _ F), H|apply (wj_vars _ _ _ G), H]. }
  assert (OU : forall v, In v (vorder u) <-> In v (vorder p)).
  { intros v. rewrite Ou, Op, (wj_scope _ _ _ F), (wj_scope _ _ _ G). tauto. }
  assert (CP : forall a, inrange card vars a -> close (nj s + nj t + 1) (gp s a * gp t a)%Qc (feval p a)).
  { intros a R. rewrite Vp by (apply (range_in _ _ IV R)). assert (C := close_mul _ _ _ _ _ _ (tk_p _ A a R) (tk_p _ B a R)).
    eapply close_trans; [exact C|]. apply close_rnd, C. }
  exists (p, u). split; [reflexivity|]. split; [|exact Op]. constructor; cbn [tf fst snd gp gu ga nj nk].
  - constructor; cbn [fst snd]; [exact Wp|exact Wu|exact OU|exact IV|]. intros a R. apply (CP a R).
  - exact CP.
  - intros a R. rewrite Vu by (intros v Hv; apply R, IV, OU, Hv). apply tri_rnd, tri_add; [apply (tri_mono (nk s)); [exact LA|apply (tk_u _ A a R)]|apply (tri_mono (nk t)); [exact LB|apply (tk_u _ B a R)]].
  - intros a b E. rewrite (tk_dp _ A a b), (tk_dp _ B a b); [reflexivity|intros v Hv; apply E, Op; auto..].
  - intros a b E. rewrite (tk_du _ A a b), (tk_du _ B a b); [reflexivity|intros v Hv; apply E, Op; auto..].
  - intros a b E. rewrite (tk_da _ A a b), (tk_da _ B a b); [reflexivity|intros v Hv; apply E, Op; auto..].
Qed.

Lemma rcombine_fold l : Forall tracked l -> forall t K, tracked t -> nk t <= K -> Forall (fun t => nk t <= K) l ->
  exists h, foldM rcombine_two (map tf l) (tf t) = Ok h /\
    tracked (mkTJ h (PG (t :: l)) (SG gu (t :: l)) (SG ga (t :: l)) (pred (cnt (t :: l))) (K + length l)) /\
    forall v, In v (vorder (fst h)) <-> covered (map tf (t :: l)) v.
Proof.
  induction 1 as [|g l G L IH]; intros t K F KT KL.
  - exists (tf t). split; [reflexivity|]. split.
    + destruct t as [h p u x j k]. apply (tracked_ext h p u x); try (intros a; unfold PG, SG; cbn; ring).
      destruct F as [A B C D1 D2 D3]. cbn in *. constructor; cbn; auto.
      * intros a R. apply (close_mono j); [lia|]. apply B, R.
      * intros a R. apply (tri_mono k); [lia|]. apply C, R.
    + intros v. unfold covered. cbn. split; [intros H; exists (tf t); auto|]. intros (f & [<-|[]] & H). exact H.
  - inversion KL as [|? ? KG KL']; subst. destruct (rcombine_two_ok t g K F G KT KG) as (h & E & W & O). cbn [map foldM]. rewrite E. cbn [rbind].
    destruct (IH (mkTJ h (fun a => gp t a * gp g a)%Qc (fun a => gu t a + gu g a)%Qc (fun a => ga t a + ga g a)%Qc (nj t + nj g + 1) (K + 1)) (K + 1) W) as (r & Er & Wr & Or).
    { cbn. lia. }
    { eapply Forall_impl; [|exact KL']. cbn. intros; lia. }
    exists r. split; [exact Er|]. split.
    + assert (EN : pred (cnt (mkTJ h (fun a => gp t a * gp g a)%Qc (fun a => gu t a + gu g a)%Qc (fun a => ga t a + ga g a)%Qc (nj t + nj g + 1) (K + 1) :: l)) = pred (cnt (t :: g :: l))).
      { unfold cnt, sumn. cbn. lia. }
      rewrite EN in Wr. replace (K + length (g :: l)) with (K + 1 + length l) by (cbn; lia).
      apply (tracked_ext r _ _ _ _ _ _ _ _) with (4 := Wr); intros a; unfold PG, SG; cbn; ring.
    + intros v. rewrite Or. unfold covered. cbn [map In]. split.
      * intros (x & [<-|Ix] & H); cbn [tf] in *.
        -- apply O in H as [H|H]; [exists (tf t)|exists (tf g)]; (split; [tauto|exact H]).
        -- exists x. split; [tauto|exact H].
      * intros (x & [<-|[<-|Ix]] & H).
        -- exists h. split; [left; reflexivity|]. apply O; left; exact H.
        -- exists h. split; [left; reflexivity|]. apply O; right; exact H.
        -- exists x. split; [right; exact Ix|exact H].
Qed.

Lemma PG_perm l l' a : Permutation l l' -> PG l a = PG l' a.
Proof. intros P. apply qprod_perm, Permutation_map, P. Qed.
Lemma SG_perm X l l' a : Permutation l l' -> SG X l a = SG X l' a.
Proof. intros P. apply qsum_perm, Permutation_map, P. Qed.
Lemma cnt_perm l l' : Permutation l l' -> cnt l = cnt l'.
Proof. induction 1; unfold cnt, sumn in *; cbn in *; lia. Qed.
Lemma cnt_app l l' : cnt (l ++ l') = cnt l + cnt l'.
Proof. unfold cnt, sumn. rewrite map_app. induction l as [|x l IH]; cbn in *; [reflexivity|lia]. Qed.
Lemma PG_app l l' a : PG (l ++ l') a = (PG l a * PG l' a)%Qc.
Proof. unfold PG. rewrite map_app. apply qprod_app. Qed.
Lemma SG_app X l l' a : SG X (l ++ l') a = (SG X l a + SG X l' a)%Qc.
Proof. unfold SG. rewrite map_app. apply qsum_app. Qed.

Lemma rcombine_ok k l K : Forall tracked l -> Forall (fun t => nk t <= K) l -> l <> [] ->
  exists h, rcombine (bag k (map tf l)) = Ok h /\
    tracked (mkTJ h (PG l) (SG gu l) (SG ga l) (pred (cnt l)) (K + pred (length l))) /\
    forall v, In v (vorder (fst h)) <-> covered (map tf l) v.
Proof.
  intros W KL N. assert (P := bag_perm k (map tf l)). apply Permutation_map_inv in P as (l2 & E & P). rewrite E.
  destruct l2 as [|t l2]; [apply Permutation_sym, Permutation_nil in P; contradiction|].
  assert (W' : Forall tracked (t :: l2)) by (eapply Permutation_Forall; [exact P|exact W]).
  assert (K' : Forall (fun t => nk t <= K) (t :: l2)) by (eapply Permutation_Forall; [exact P|exact KL]).
  inversion W'; inversion K'; subst. cbn [map combine_factors_by].
  destruct (rcombine_fold l2 H2 t K H1 H5 H6) as (h & Eh & Wh & Oh). exists h. split; [exact Eh|]. split.
  - rewrite (cnt_perm _ _ P), (Permutation_length P). cbn [length pred].
    apply (tracked_ext h) with (4 := Wh); intros a; symmetry; [apply PG_perm|apply SG_perm|apply SG_perm]; exact P.
  - intros v. rewrite Oh. unfold covered. split; intros (f & I & H); exists f; (split; [|exact H]).
    + eapply Permutation_in; [apply Permutation_map, Permutation_sym, P|exact I].
    + eapply Permutation_in; [apply Permutation_map, P|exact I].
Qed.

Lemma gp_nonneg t a : tracked t -> inrange card vars a -> (0 <= gp t a)%Qc.
Proof. intros T R. apply (tk_p _ T a R). Qed.
Lemma ga_ok t a : tracked t -> inrange card vars a -> (magnitude (gu t a) <= ga t a)%Qc.
Proof. intros T R. apply (tk_u _ T a R). Qed.

Definition over (v : string) (p : asg -> Qc) (a : asg) : Qc := bigsum (card v) (fun i => p (upd a v i)).

Lemma over_deps v p l l' : deps l p -> (forall u, In u l -> u = v \/ In u l') -> deps l' (over v p).
Proof.
  intros D I a b E. unfold over. apply bigsum_ext. intros i _. apply D. intros u Hu. unfold upd. destruct (String.eqb_spec u v) as [->|N]; [reflexivity|].
  destruct (I u Hu) as [X|X]; [contradiction|]. apply E, X.
Qed.

Lemma over_zero v p q a : (forall i, i < card v -> (0 <= p (upd a v i))%Qc) -> over v p a = 0%Qc -> over v (fun b => p b * q b)%Qc a = 0%Qc.
Proof.
  intros N Z. unfold over. apply bigsum_zero. intros i Hi.
  assert (Zi : p (upd a v i) = 0%Qc) by (apply (bigsum_nonneg_zero (card v) (fun i => p (upd a v i))); assumption). rewrite Zi. ring.
Qed.

Definition cond (v : string) (p q : asg -> Qc) (a : asg) : Qc := (over v (fun b => p b * q b) a * / over v p a)%Qc.

Lemma rmarginalize_ok t v : tracked t -> In v (vorder (fst (tf t))) ->
  ((forall u, In u (vorder (fst (tf t))) -> u = v) -> forall a, inrange card vars a -> over v (gp t) a <> 0%Qc) ->
  (exists a, inrange card vars a) ->
  exists h, rmarginalize (tf t) v = Ok h /\
    tracked (mkTJ h (over v (gp t)) (cond v (gp t) (gu t)) (cond v (gp t) (ga t)) (nj t + card v) (nk t + 2 * nj t + 2 * card v + 3)) /\
    (forall u, In u (vorder (fst h)) <-> In u (vorder (fst (tf t))) /\ u <> v).
Proof.
  intros TT Iv NZ (a0 & R0). assert (F := tk_wf _ TT). unfold marginalize_joint_by. set (f := tf t) in *.
  destruct (rmarg_spec dom (fst f) v (wj_p _ _ _ F) Iv) as (p & tg & Ep & Wp & Op & Vp). rewrite Ep. cbn [rbind].
  destruct (fcombine_spec dom (fun x y => rnd (x * y)%Qc) (fst f) (snd f) (wj_p _ _ _ F) (wj_u _ _ _ F)) as (pu & Epu & Wpu & _ & Opu & Vpu).
  unfold rmul at 1. rewrite Epu. cbn [rbind].
  assert (Ipu : forall u, In u (vorder pu) <-> In u (vorder (fst f))).
  { intros u. rewrite Opu, (wj_scope _ _ _ F). tauto. }
  destruct (rmarg_spec dom pu v Wpu (proj2 (Ipu v) Iv)) as (m & tg2 & Em & Wm & Om & Vm). rewrite Em. cbn [rbind].
  assert (SP : forall u, In u (vorder p) <-> In u (vorder (fst f)) /\ u <> v).
  { intros u. rewrite Op. apply remove1_In, (wj_p _ _ _ F). }
  assert (SM : forall u, In u (vorder m) <-> In u (vorder (fst f)) /\ u <> v).
  { intros u. rewrite Om, remove1_In by apply Wpu. rewrite Ipu. tauto. }
  assert (VP : forall a, inrange card vars a -> close (nj t + card v) (over v (gp t) a) (feval p a)).
  { intros a R. rewrite Vp by (intros u Hu; apply R; apply SP in Hu; apply (wj_vars _ _ _ F), Hu). apply rsum_close_ix. intros i Hi. apply (tk_p _ TT).
    apply (range_upd dom vars v i a R Hi). }
  assert (VM : forall X Y k, (forall a, inrange card vars a -> tri k (X a) (Y a) (feval (snd f) a)) -> forall a, inrange card vars a ->
     tri (nj t + k + 1 + card v) (over v (fun b => gp t b * X b)%Qc a) (over v (fun b => gp t b * Y b)%Qc a) (feval m a)).
  { intros X Y k H a R. rewrite Vm by (intros u Hu; apply R; apply SM in Hu; apply (wj_vars _ _ _ F), Hu). apply (rsum_tri (nj t + k + 1) (tg2 a) (card v)). intros i Hi.
    assert (Ri := range_upd dom vars v i a R Hi). rewrite Vpu by (intros u Hu; apply Ipu in Hu; apply Ri, (wj_vars _ _ _ F), Hu).
    apply tri_rnd, tri_mul; [apply (tk_p _ TT), Ri|apply H, Ri]. }
  destruct (rdiv_spec dom m p Wm Wp) as (q & Eq & Wq & Oq & Vq).
  { intros u Hu. apply SM, SP, Hu. }
  { intros Z. assert (C : forall u, In u (vorder (fst f)) -> u = v).
    { intros u Hu. destruct (string_dec u v) as [E|N]; [exact E|]. assert (X : In u (vorder p)) by (apply SP; auto). rewrite Z in X. destruct X. }
    assert (E : feval p (fun _ => 0) = feval p a0). { apply feval_deps. rewrite Z. intros ? []. }
    rewrite E. intros Z0. apply (NZ C a0 R0). assert (CL := VP a0 R0). rewrite Z0 in CL. destruct CL as (A & _ & _ & D). rewrite Qcmult_0_r in D. apply Qcle_antisym; assumption. }
  rewrite Eq. cbn [rbind]. exists (p, q). split; [reflexivity|]. split; [|exact SP].
  constructor; cbn [tf fst snd gp gu ga nj nk].
  - constructor; cbn [fst snd]; [exact Wp|exact Wq| | |].
    + intros u. rewrite Oq, SM, SP. tauto.
    + intros u Hu. apply SP in Hu as [Hu _]. apply (wj_vars _ _ _ F), Hu.
    + intros a R. apply (VP a R).
  - exact VP.
  - intros a R. rewrite Vq by (intros u Hu; apply R; apply Oq, SM in Hu; apply (wj_vars _ _ _ F), Hu).
    assert (CI := close_inv0 _ _ _ (VP a R)). assert (TM := VM (gu t) (ga t) (nk t) (tk_u _ TT) a R).
    assert (TR := tri_rnd _ _ _ _ (tri_mul _ _ _ _ _ _ _ CI TM)). unfold cond.
    rewrite (Qcmult_comm (over v (fun b => gp t b * gu t b)%Qc a)), (Qcmult_comm (over v (fun b => gp t b * ga t b)%Qc a)), (Qcmult_comm (feval m a)).
    eapply tri_mono; [|exact TR]. lia.
  - apply (over_deps v _ (vorder (fst f))); [apply (tk_dp _ TT)|]. intros u Hu. destruct (string_dec u v); [auto|right; apply SP; auto].
  - assert (D1 := over_deps v _ (vorder (fst f)) (vorder p) (tk_dp _ TT)).
    assert (D2 := over_deps v (fun b => gp t b * gu t b)%Qc (vorder (fst f)) (vorder p)).
    intros a b E. unfold cond. rewrite D1 with (a := a) (b := b), D2 with (a := a) (b := b); auto.
    + intros x y H. rewrite (tk_dp _ TT x y H), (tk_du _ TT x y H). reflexivity.
    + intros u Hu. destruct (string_dec u v); [auto|right; apply SP; auto].
    + intros u Hu. destruct (string_dec u v); [auto|right; apply SP; auto].
  - assert (D1 := over_deps v _ (vorder (fst f)) (vorder p) (tk_dp _ TT)).
    assert (D2 := over_deps v (fun b => gp t b * ga t b)%Qc (vorder (fst f)) (vorder p)).
    intros a b E. unfold cond. rewrite D1 with (a := a) (b := b), D2 with (a := a) (b := b); auto.
    + intros x y H. rewrite (tk_dp _ TT x y H), (tk_da _ TT x y H). reflexivity.
    + intros u Hu. destruct (string_dec u v); [auto|right; apply SP; auto].
    + intros u Hu. destruct (string_dec u v); [auto|right; apply SP; auto].
Qed.

Lemma cond_mul v p q a : (forall i, i < card v -> (0 <= p (upd a v i))%Qc) -> (over v p a * cond v p q a)%Qc = over v (fun b => p b * q b)%Qc a.
Proof.
  intros N. unfold cond. destruct (Qc_eq_dec (over v p a) 0%Qc) as [Z|NZ]; [|field; exact NZ].
  rewrite Z, (over_zero v p q a N Z). ring.
Qed.

Lemma PG_deps l : Forall tracked l -> deps vars (PG l).
Proof.
  intros W. apply (qprod_map_deps vars gp). intros t Ht. rewrite Forall_forall in W.
  apply (deps_incl (vorder (fst (tf t)))); [apply (wj_vars _ _ _ (tk_wf _ (W t Ht)))|apply (tk_dp _ (W t Ht))].
Qed.
Definition local (X : tj -> asg -> Qc) : Prop := forall t, tracked t -> deps (vorder (fst (tf t))) (X t).
Lemma SG_deps X l : local X -> Forall tracked l -> deps vars (SG X l).
Proof.
  intros LX W a b E. unfold SG. apply qsum_map_ext. intros t Ht. rewrite Forall_forall in W. apply (LX t (W t Ht)). intros v Hv.
  apply E, (wj_vars _ _ _ (tk_wf _ (W t Ht))), Hv.
Qed.
Lemma PG_nonneg l a : Forall tracked l -> inrange card vars a -> (0 <= PG l a)%Qc.
Proof. intros W R. apply qprod_nonneg. rewrite Forall_map. eapply Forall_impl; [|exact W]. intros t T. apply gp_nonneg; assumption. Qed.

Lemma gstep X v (oth rel : list tj) h a : local X -> Forall tracked oth -> (forall t, In t oth -> ~ In v (vorder (fst (tf t)))) -> Forall tracked rel ->
  inrange card vars a -> gp h a = over v (PG rel) a -> (gp h a * X h a)%Qc = over v (fun b => PG rel b * SG X rel b)%Qc a ->
  PG (oth ++ [h]) a = over v (PG (oth ++ rel)) a /\
  (PG (oth ++ [h]) a * SG X (oth ++ [h]) a)%Qc = over v (fun b => PG (oth ++ rel) b * SG X (oth ++ rel) b)%Qc a.
Proof.
  intros LX WO NO WR R E1 E2. rewrite Forall_forall in WO.
  assert (PO : forall i, PG oth (upd a v i) = PG oth a).
  { intros i. unfold PG. apply qprod_map_ext. intros t Ht. apply (tk_dp _ (WO t Ht)). intros u Hu. apply upd_neq. intros ->. apply (NO t Ht Hu). }
  assert (UO : forall i, SG X oth (upd a v i) = SG X oth a).
  { intros i. unfold SG. apply qsum_map_ext. intros t Ht. apply (LX t (WO t Ht)). intros u Hu. apply upd_neq. intros ->. apply (NO t Ht Hu). }
  assert (PH : PG [h] a = gp h a) by (unfold PG; cbn; ring).
  assert (UH : SG X [h] a = X h a) by (unfold SG; cbn; ring).
  split.
  - rewrite PG_app, PH, E1. unfold over. rewrite <- bigsum_mult_l. apply bigsum_ext. intros i _. rewrite PG_app, PO. reflexivity.
  - rewrite PG_app, SG_app, PH, UH.
    transitivity ((PG oth a * SG X oth a) * gp h a + PG oth a * (gp h a * X h a))%Qc; [ring|].
    rewrite E2, E1. unfold over. rewrite <- !bigsum_mult_l, <- bigsum_plus. apply bigsum_ext. intros i _. rewrite PG_app, SG_app, PO, UO. ring.
Qed.

Lemma local_gu : local gu. Proof. intros t T. apply (tk_du _ T). Qed.
Lemma local_ga : local ga. Proof. intros t T. apply (tk_da _ T). Qed.

Lemma sum_last_g vs v F a : ext F -> sum_over card (v :: vs) F a = sum_over card vs (over v F) a.
Proof. apply sum_last. Qed.

Theorem reliminate_ok vs : NoDup vs -> incl vs vars -> forall k l K, Forall tracked l -> Forall (fun t => nk t <= K) l -> (forall v, In v vs -> covered (map tf l) v) ->
  (exists a, inrange card vars a /\ sum_over card vs (PG l) a <> 0%Qc) -> l <> [] ->
  exists l' K', reliminate k (map tf l) vs = Ok (map tf l') /\ Forall tracked l' /\ Forall (fun t => nk t <= K') l' /\ l' <> [] /\
    (forall v, covered (map tf l') v <-> covered (map tf l) v /\ ~ In v vs) /\
    K' + length l' <= K + length l + length vs * (2 * (cnt l + sumn (map card vs)) + 1) /\
    forall a, inrange card vars a -> PG l' a = sum_over card vs (PG l) a /\
       (PG l' a * SG gu l' a)%Qc = sum_over card vs (fun b => PG l b * SG gu l b)%Qc a /\
       (PG l' a * SG ga l' a)%Qc = sum_over card vs (fun b => PG l b * SG ga l b)%Qc a.
Proof.
  induction 1 as [|v vs Nv ND IH]; intros IV k l K W KL C NZ NL.
  - exists l, K. split; [reflexivity|]. split; [exact W|]. split; [exact KL|]. split; [exact NL|]. split; [intros v; cbn; tauto|]. split; [cbn; lia|]. intros a R. repeat split; reflexivity.
  - cbn [eliminate_by]. set (inv := fun t => mem v (vorder (fst (tf t)))).
    set (rel := filter inv l). set (oth := filter (fun t => negb (inv t)) l).
    assert (FR : filter (fun f => mem v (vorder (fst f))) (map tf l) = map tf rel).
    { unfold rel, inv. clear. induction l as [|t l IH]; [reflexivity|]. cbn. destruct (mem v (vorder (fst (tf t)))); cbn; rewrite IH; reflexivity. }
    assert (FO : filter (fun f => negb (mem v (vorder (fst f)))) (map tf l) = map tf oth).
    { unfold oth, inv. clear. induction l as [|t l IH]; [reflexivity|]. cbn. destruct (mem v (vorder (fst (tf t)))); cbn; rewrite IH; reflexivity. }
    rewrite FR, FO.
    assert (PL : Permutation l (oth ++ rel)) by apply DecVE.filter_split.
    assert (WR : Forall tracked rel) by (apply Forall_filter, W). assert (WO : Forall tracked oth) by (apply Forall_filter, W).
    assert (KR : Forall (fun t => nk t <= K) rel) by (apply Forall_filter, KL). assert (KO : Forall (fun t => nk t <= K) oth) by (apply Forall_filter, KL).
    destruct (C v (or_introl eq_refl)) as (f0 & I0 & S0). apply in_map_iff in I0 as (t0 & <- & I0).
    assert (IR0 : In t0 rel) by (apply filter_In; split; [exact I0|apply mem_In, S0]).
    assert (NR : rel <> []) by (intros Z; rewrite Z in IR0; destruct IR0).
    assert (NO : forall t, In t oth -> ~ In v (vorder (fst (tf t)))).
    { intros t Ht Hv. apply filter_In in Ht as [_ Ht]. apply negb_true_iff in Ht. apply mem_nIn in Ht. contradiction. }
    destruct (rcombine_ok k rel K WR KR NR) as (t & Et & Wt & Ot). rewrite Et. cbn [rbind].
    assert (It : In v (vorder (fst t))). { apply Ot. exists (tf t0). split; [apply in_map, IR0|exact S0]. }
    assert (XP : ext (PG l)) by (eapply deps_ext, PG_deps, W).
    destruct NZ as (a0 & R0 & NZ).
    destruct (rmarginalize_ok _ v Wt It) as (h & Eh & Wh & Oh); cbn [tf gp gu ga nj nk] in *.
    { intros Only a Ra Z. apply NZ. rewrite sum_last_g by exact XP. apply sum_over_zero. intros b Rb Eb.
      assert (Rb' : inrange card vars b).
      { intros u Hu. destruct (In_dec_s u vs) as [I|N]; [apply Rb, I|rewrite (Eb u N); apply R0, Hu]. }
      unfold over in Z |- *. rewrite (bigsum_ext _ _ (fun i => PG oth b * PG rel (upd a v i))%Qc); [rewrite bigsum_mult_l, Z; ring|].
      intros i Hi. rewrite (PG_perm _ _ _ PL), PG_app. f_equal.
      - unfold PG. apply qprod_map_ext. intros x Hx. rewrite Forall_forall in WO. apply (tk_dp _ (WO x Hx)). intros u Hu. apply upd_neq. intros ->. apply (NO x Hx Hu).
      - apply (tk_dp _ Wt). cbn [tf]. intros u Hu. rewrite (Only u Hu), !upd_eq. reflexivity. }
    { exists a0. exact R0. }
    rewrite Eh. cbn [rbind].
    set (H := mkTJ h (over v (PG rel)) (cond v (PG rel) (SG gu rel)) (cond v (PG rel) (SG ga rel)) (pred (cnt rel) + card v)
                   (K + pred (length rel) + 2 * pred (cnt rel) + 2 * card v + 3)) in *.
    set (K1 := nk H). assert (Wl : Forall tracked (oth ++ [H])) by (apply Forall_app; split; [exact WO|constructor; [exact Wh|constructor]]).
    assert (KH : Forall (fun t => nk t <= K1) (oth ++ [H])).
    { apply Forall_app; split; [eapply Forall_impl; [|exact KO]; unfold K1, H; cbn; intros; lia|constructor; [unfold K1; lia|constructor]]. }
    assert (ST : forall X a, local X -> X H a = cond v (PG rel) (SG X rel) a -> inrange card vars a -> PG (oth ++ [H]) a = over v (PG l) a /\
       (PG (oth ++ [H]) a * SG X (oth ++ [H]) a)%Qc = over v (fun b => PG l b * SG X l b)%Qc a).
    { intros X a LX EX R. destruct (gstep X v oth rel H a LX WO NO WR R) as [A B].
      - reflexivity.
      - rewrite EX. apply cond_mul. intros i Hi. apply PG_nonneg; [exact WR|apply range_upd; assumption].
      - split; [etransitivity; [exact A|]|etransitivity; [exact B|]]; unfold over; apply bigsum_ext; intros i _;
        rewrite (PG_perm _ _ (upd a v i) PL), ?(SG_perm _ _ _ (upd a v i) PL); reflexivity. }
    assert (CV : forall u, covered (map tf (oth ++ [H])) u <-> covered (map tf l) u /\ u <> v).
    { intros u. rewrite map_app. cbn [map]. split.
      - intros (f & Hf & Hu). apply in_app_or in Hf as [Hf|[<-|[]]].
        + apply in_map_iff in Hf as (x & <- & Hx). split; [exists (tf x); split; [|exact Hu]; apply in_map; apply filter_In in Hx; tauto|]. intros ->. apply (NO x Hx Hu).
        + cbn [tf H] in Hu. apply Oh in Hu as [Hu N]. split; [|exact N]. apply Ot in Hu as (g & Hg & Hu).
          exists g. split; [|exact Hu]. apply in_map_iff in Hg as (x & <- & Hx). apply in_map. apply filter_In in Hx. tauto.
      - intros ((f & Hf & Hu) & N). apply in_map_iff in Hf as (x & <- & Hx). destruct (inv x) eqn:M.
        + exists h. split; [apply in_or_app; right; left; reflexivity|]. apply Oh. split; [|exact N].
          apply Ot. exists (tf x). split; [apply in_map, filter_In; auto|exact Hu].
        + exists (tf x). split; [|exact Hu]. apply in_or_app; left. apply in_map, filter_In. rewrite M. auto. }
    destruct (IH (fun x Hx => IV x (or_intror Hx)) (S k) (oth ++ [H]) K1 Wl KH) as (l' & K' & El & Wl' & Kl' & NE & Cl & Bl & Vl).
    { intros u Hu. apply CV. split; [apply C; right; exact Hu|]. intros ->; contradiction. }
    { exists a0. split; [exact R0|]. rewrite <- (sum_over_ext_in card vs (over v (PG l))).
      - rewrite <- sum_last_g by exact XP. exact NZ.
      - intros b Rb Eb. symmetry. apply (ST gu b local_gu eq_refl). intros u Hu. destruct (In_dec_s u vs) as [I|N]; [apply Rb, I|rewrite (Eb u N); apply R0, Hu]. }
    { destruct oth; discriminate. }
    exists l', K'. split; [rewrite map_app in El; exact El|]. split; [exact Wl'|]. split; [exact Kl'|]. split; [exact NE|]. split; [|split].
    { intros u. rewrite Cl, CV. cbn. intuition congruence. }
    { assert (CR : 0 < cnt rel) by (destruct rel; [contradiction|unfold cnt, sumn; cbn; lia]). assert (LR : 0 < length rel) by (destruct rel; [contradiction|cbn; lia]).
      assert (LL := Permutation_length PL). rewrite app_length in LL. assert (CC := cnt_perm _ _ PL). rewrite cnt_app in CC.
      assert (CH : cnt (oth ++ [H]) = cnt l + card v). { rewrite cnt_app. unfold cnt at 2, sumn. unfold H. cbn [map fold_right nj]. lia. }
      rewrite CH, app_length in Bl. cbn [length] in Bl.
      assert (EK : K1 = K + pred (length rel) + 2 * pred (cnt rel) + 2 * card v + 3) by reflexivity.
      assert (SV : sumn (map card (v :: vs)) = card v + sumn (map card vs)) by reflexivity. rewrite SV. cbn [length].
      replace (cnt l + card v + sumn (map card vs)) with (cnt l + (card v + sumn (map card vs))) in Bl by lia.
      set (M := 2 * (cnt l + (card v + sumn (map card vs))) + 1) in *. assert (LM : 2 * (cnt l + card v) + 1 <= M) by (unfold M; lia).
      cbn [Nat.mul]. lia. }
    intros a R. destruct (Vl a R) as (A & B & D).
    assert (XU : forall X, local X -> ext (fun b => PG l b * SG X l b)%Qc).
    { intros X LX b c E. rewrite (XP b c E), (deps_ext _ _ (SG_deps X l LX W) b c E). reflexivity. }
    rewrite !sum_last_g by (first [exact XP|apply XU, local_gu|apply XU, local_ga]).
    split; [etransitivity; [exact A|]|split; [etransitivity; [exact B|]|etransitivity; [exact D|]]]; apply sum_over_ext_in; intros b Rb Eb.
    + apply (ST gu b local_gu eq_refl). intros u Hu; (destruct (In_dec_s u vs) as [I|N]; [apply Rb, I|rewrite (Eb u N); apply R, Hu]).
    + apply (ST gu b local_gu eq_refl). intros u Hu; (destruct (In_dec_s u vs) as [I|N]; [apply Rb, I|rewrite (Eb u N); apply R, Hu]).
    + apply (ST ga b local_ga eq_refl). intros u Hu; (destruct (In_dec_s u vs) as [I|N]; [apply Rb, I|rewrite (Eb u N); apply R, Hu]).
Qed.
End Elim.
