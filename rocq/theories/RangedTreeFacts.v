(** Operations on tables in arithmetic of limited range, divisions included. *)
From Verif Require Import Base BaseFacts NDArray NDArrayFacts SumCalc Factor FactorFacts Exact Order Spec SpecFacts JoinTree
  Rounded RoundedSpec RoundedProof RoundedTop RoundedTree RoundedTreeProof Ranged RangedSpec RangedProof RangedTree.

Section Facts.
Context {RD : Rounding} {LM : Limits} {IV : Inverting} {AD : Adding} {SO : SetOrder}.
Variables (P : Qc) (b : bn).
Hypothesis P1 : (1 <= P)%Qc.
Notation dom := (values_of b).
Notation mag := (mag P).
Notation amag := (amag P).
Notation fits := (fits P).
Notation near3 := (near3 P dom).
Notation lmul := (mul_with lim).
Notation lmarg := (marg_with lim).
Notation linv := (invert_with lim finite).
Notation bound := (fun p s => (power P p * power (1 + 1) s)%Qc).

(** Zero or between 1/[M] and [M]. *)
Definition rng (M x : Qc) : Prop := (x = 0 \/ (1 <= x * M /\ x <= M))%Qc.

Lemma bound_ge p s : (1 <= bound p s)%Qc.
Proof. apply le_1_mul; apply pw_ge; [exact P1|apply two_ge]. Qed.
Lemma ge_nonneg M : (1 <= M -> 0 <= M)%Qc.
Proof. intros H. eapply Qcle_trans; [|exact H]. discriminate. Qed.

Lemma mag_rng p s x : mag p s x -> rng (bound p s) x.
Proof.
  intros M. assert (X0 := mag_nonneg P P1 _ _ _ M). destruct M as [M|[A B]]; [left; exact M|right]. split; [|exact B]. eapply Qcle_trans; [exact A|].
  rewrite Qcmult_assoc. rewrite <- (Qcmult_1_r (x * power P p)%Qc) at 1. apply le_mul; [apply Qcmult_nonneg; [exact X0|apply pw_nonneg, P1]|apply pw_nonneg, two_ge|apply Qcle_refl|apply pw_ge, two_ge].
Qed.

Lemma rng_pos M x : (1 <= M)%Qc -> rng M x -> (0 <= x)%Qc.
Proof.
  intros M1 [->|[A _]]; [apply Qcle_refl|]. destruct (Qclt_le_dec x 0) as [L|L]; [|exact L]. exfalso.
  assert (H : (x * M <= 0 * M)%Qc) by (apply Qcmult_le_compat_r; [apply Qclt_le_weak, L|apply ge_nonneg, M1]).
  rewrite Qcmult_0_l in H. assert (C := Qcle_trans _ _ _ A H). destruct (C eq_refl).
Qed.

Lemma rng_mul M N x y : (1 <= M -> 1 <= N -> rng M x -> rng N y -> rng (M * N) (x * y))%Qc.
Proof.
  intros M1 N1 A C. assert (X0 := rng_pos _ _ M1 A). assert (Y0 := rng_pos _ _ N1 C). destruct A as [->|[A1 A2]]; [left; apply Qcmult_0_l|]. destruct C as [->|[C1 C2]]; [left; apply Qcmult_0_r|]. right. split.
  - replace (x * y * (M * N))%Qc with ((x * M) * (y * N))%Qc by ring. apply le_1_mul; assumption.
  - apply le_mul; try assumption. apply ge_nonneg, N1.
Qed.

Lemma rng_inv M x : (1 <= M)%Qc -> rng M x -> x <> 0%Qc -> rng M (/ x).
Proof.
  intros M1 R NZ. assert (X0 := rng_pos _ _ M1 R). destruct R as [R|[A B]]; [contradiction|]. assert (XP : (0 < x)%Qc) by (apply Qc_nonneg_neq0_pos; assumption).
  assert (IP := Qcinv_pos _ XP). assert (IE : (x * / x = 1)%Qc) by (apply Qcmult_inv_r, NZ). right. split.
  - rewrite <- IE, (Qcmult_comm (/ x)). apply Qcmult_le_compat_r; [exact B|apply Qclt_le_weak, IP].
  - rewrite <- (Qcmult_1_l (/ x)). replace M with (x * M * / x)%Qc by (replace (x * M * / x)%Qc with (M * (x * / x))%Qc by ring; rewrite IE; ring).
    apply Qcmult_le_compat_r; [exact A|apply Qclt_le_weak, IP].
Qed.

(** Rounded numbers near exact ones in range are in range. *)
Lemma inside_pos M k x y : (1 <= M)%Qc -> rng M x -> x <> 0%Qc -> close k x y -> (M * power (1 + ulp) k <= top)%Qc -> (1 <= y * top)%Qc /\ (y <= top)%Qc.
Proof.
  intros M1 R NZ (C1 & C2 & C3 & C4) F. destruct R as [R|[A B]]; [contradiction|]. assert (N3 := pw_nonneg (1 + ulp)%Qc k one_ge). assert (M0 := ge_nonneg _ M1). split.
  - apply Qcle_trans with (y * (M * power (1 + ulp) k))%Qc; [|apply le_mul; [exact C2| |apply Qcle_refl|exact F]].
    + eapply Qcle_trans; [exact A|]. replace (y * (M * power (1 + ulp) k))%Qc with ((power (1 + ulp) k * y) * M)%Qc by ring. apply Qcmult_le_compat_r; assumption.
    + eapply Qcle_trans; [|exact F]. apply Qcmult_nonneg; assumption.
  - eapply Qcle_trans; [exact C3|]. eapply Qcle_trans; [|exact F]. rewrite (Qcmult_comm M). apply le_mul; try assumption. apply Qcle_refl.
Qed.
Lemma inside_rng M k x y : (1 <= M)%Qc -> rng M x -> close k x y -> (M * power (1 + ulp) k <= top)%Qc -> lim y = rnd y.
Proof. intros M1 R C F. apply (inside_of M k x); [exact R|apply ge_nonneg, M1|exact C|exact F]. Qed.

(** What multiplication does. *)
Lemma mul_shape j k f f' g g' h : near dom j f f' -> near dom k g g' -> fmul f g = Ok h ->
  exists sh a a' c c' vo fv, anear j a a' /\ anear k c c' /\
    (forall X : Qc -> Prop, X 0%Qc -> Forall X (data (pot f)) -> forall i, X (bget a i)) /\
    (forall X : Qc -> Prop, X 0%Qc -> Forall X (data (pot g)) -> forall i, X (bget c i)) /\
    data (pot h) = map (fun i => bget a i * bget c i)%Qc (indices sh) /\
    forall op, fcombine op f' g' = Ok (mkF (mkArr sh (map (fun i => op (bget a' i) (bget c' i)) (indices sh))) vo fv).
Proof.
  assert (GET : forall (X : Qc -> Prop) a, X 0%Qc -> Forall X (data a) -> forall i, X (aget a i)).
  { intros X a X0 H i. unfold aget. destruct (nth_in_or_default (ravel (shape a) i) (data a) 0%Qc) as [I| ->]; [exact (proj1 (Forall_forall _ _) H _ I)|exact X0]. }
  assert (ZIP : forall a a' c c' r, anear j a a' -> anear k c c' -> zipb Qcmult a c = Ok r ->
    exists sh, data r = map (fun i => bget a i * bget c i)%Qc (indices sh) /\ forall op, zipb op a' c' = Ok (mkArr sh (map (fun i => op (bget a' i) (bget c' i)) (indices sh)))).
  { intros a a' c c' r [S _] [S2 _]. unfold zipb, rank. rewrite <- S, <- S2. destruct (bshape _ _) as [sh|]; cbn; [|discriminate]. intros E; inversion E; subst. exists sh. split; reflexivity. }
  intros N M E. destruct N as [Wf Of Vf Pf], M as [Wg Og Vg Pg]. unfold fmul, fcombine in *. rewrite Of, Og, Vf, Vg.
  destruct (vorder f) as [|v vs] eqn:EO.
  - destruct (zipb Qcmult (pot f) (pot g)) as [r|] eqn:Z; [|discriminate]. cbn in E. inversion E; subst. destruct (ZIP _ _ _ _ _ Pf Pg Z) as (sh & D & O).
    exists sh, (pot f), (pot f'), (pot g), (pot g'), (vorder g), (fvals g). split; [exact Pf|]. split; [exact Pg|]. split; [intros X X0 H i; exact (GET X _ X0 H _)|].
    split; [intros X X0 H i; exact (GET X _ X0 H _)|]. split; [exact D|]. intros op. rewrite O. reflexivity.
  - destruct (vorder g) as [|w ws] eqn:EG.
    + destruct (zipb Qcmult (pot f) (pot g)) as [r|] eqn:Z; [|discriminate]. cbn in E. inversion E; subst. destruct (ZIP _ _ _ _ _ Pf Pg Z) as (sh & D & O).
      exists sh, (pot f), (pot f'), (pot g), (pot g'), (v :: vs), (fvals f). split; [exact Pf|]. split; [exact Pg|]. split; [intros X X0 H i; exact (GET X _ X0 H _)|].
      split; [intros X X0 H i; exact (GET X _ X0 H _)|]. split; [exact D|]. intros op. rewrite O. reflexivity.
    + destruct (add_vals _ _ _) as [rv|]; cbn [rbind] in *; [|discriminate]. destruct (mapM _ _) as [sw|]; cbn [rbind] in *; [|discriminate].
      match type of E with context [transpose ?a sw] => destruct (transpose a sw) as [p2|] eqn:T; cbn [rbind] in E; [|discriminate];
        destruct (anear_transpose k a (expand (pot g') (length (sdiff ((v :: vs) ++ sdiff (w :: ws) (v :: vs)) (w :: ws)))) sw p2) as (p2' & T' & N2); [apply anear_expand, Pg|exact T|] end.
      rewrite T'. cbn [rbind].
      match type of E with context [zipb Qcmult ?a ?c] => destruct (zipb Qcmult a c) as [r|] eqn:Z; cbn [rbind] in E; [|discriminate];
        destruct (ZIP a (expand (pot f') (length (sdiff (w :: ws) (v :: vs)))) c p2' r (anear_expand _ _ _ _ Pf) N2 Z) as (sh & D & O);
        exists sh, a, (expand (pot f') (length (sdiff (w :: ws) (v :: vs)))), c, p2' end.
      do 2 eexists. split; [apply anear_expand, Pf|]. split; [exact N2|]. split; [intros X X0 H i; apply (GET X); [exact X0|exact H]|]. split; [|split].
      * intros X X0 H i. unfold bget. apply (GET X); [exact X0|]. unfold transpose in T. destruct (is_perm _ _); [|discriminate]. inversion T; subst. cbn [tabulate data]. apply Forall_forall. intros x Hx. apply in_map_iff in Hx as (y & <- & _). apply (GET X); [exact X0|exact H].
      * inversion E; subst. exact D.
      * intros op. rewrite O. reflexivity.
Qed.

Lemma mul_in M j k f f' g g' h : (1 <= M)%Qc -> near dom j f f' -> near dom k g g' -> fmul f g = Ok h -> Forall (rng M) (data (pot h)) -> (M * power (1 + ulp) (j + k) <= top)%Qc ->
  lmul f' g' = rmul f' g'.
Proof.
  intros M1 N N2 E R F. destruct (mul_shape j k f f' g g' h N N2 E) as (sh & a & a' & c & c' & vo & fv & NA & NC & _ & _ & D & O). unfold mul_with, rmul. rewrite !O. f_equal. f_equal. f_equal.
  apply map_ext_in. intros i Hi. apply (inside_rng M (j + k) (bget a i * bget c i)%Qc); [exact M1| | |exact F].
  - rewrite D in R. exact (proj1 (Forall_forall _ _) R _ (in_map _ _ _ Hi)).
  - apply close_mul; unfold bget, rank; [rewrite <- (proj1 NA)|rewrite <- (proj1 NC)]; apply anear_get; assumption.
Qed.

Lemma mul_rng M N j k f f' g g' h : (1 <= M)%Qc -> (1 <= N)%Qc -> near dom j f f' -> near dom k g g' -> fmul f g = Ok h -> Forall (rng M) (data (pot f)) -> Forall (rng N) (data (pot g)) ->
  Forall (rng (M * N)) (data (pot h)).
Proof.
  intros M1 N1 A C E RF RG. destruct (mul_shape j k f f' g g' h A C E) as (sh & a & a' & c & c' & vo & fv & _ & _ & XA & XC & D & _). rewrite D. apply Forall_forall. intros x Hx.
  apply in_map_iff in Hx as (i & <- & _). apply rng_mul; [exact M1|exact N1| |]; [apply XA|apply XC]; (exact RF || exact RG || (left; reflexivity)).
Qed.

Lemma inv_in M k f f' h : (1 <= M)%Qc -> near dom k f f' -> finvert f = Ok h -> Forall (rng M) (data (pot f)) -> (M * power (1 + ulp) k <= top)%Qc ->
  linv f' = rinvert f' /\ Forall (rng M) (data (pot h)).
Proof.
  intros M1 N E R F. destruct N as [W O V PT]. unfold finvert in E. unfold invert_with, rinvert. rewrite O. destruct PT as [PS PD].
  assert (IN : forall x y, rng M x -> close k x y -> y <> 0%Qc -> lim (/ y) = rnd (/ y) /\ finite (/ y) = rnd (/ y)).
  { intros x y RX C NZ. assert (X0 := rng_pos _ _ M1 RX). assert (YP : (0 < y)%Qc) by (apply Qc_nonneg_neq0_pos; [apply C|exact NZ]). assert (XP := proj2 (close_pos _ _ _ C) YP).
    assert (XN : x <> 0%Qc) by (apply Qc_pos_neq0, XP). assert (RI := rng_inv M x M1 RX XN). assert (CI := close_inv _ _ _ C XP).
    assert (IX : (/ x)%Qc <> 0%Qc) by (apply Qc_pos_neq0, Qcinv_pos, XP). destruct (inside_pos M k (/ x)%Qc (/ y)%Qc M1 RI IX CI F) as [A B]. split; [apply lim_inside|apply finite_inside]; assumption. }
  destruct (vorder f) as [|v vs].
  - assert (EX : forall l l', Forall2 (close k) l l' -> existsb (fun x => qeqb x 0%Qc) l = false -> existsb (fun x => qeqb x 0%Qc) l' = false).
    { clear. induction 1 as [|x y l l' C D IH]; cbn; [reflexivity|]. intros H. apply orb_false_iff in H as [H1 H2]. rewrite (IH H2), orb_false_r. apply qeqb_false in H1. apply qeqb_false. intros ->.
      assert (X : (0 < x)%Qc) by (apply Qc_nonneg_neq0_pos; [apply C|exact H1]). apply (close_pos _ _ _ C) in X. destruct (Qc_lt_irrefl _ X). }
    destruct (existsb _ (data (pot f))) eqn:X; [discriminate|]. rewrite (EX _ _ PD X). inversion E; subst h. cbn [pot data amap]. split.
    + f_equal. f_equal. unfold amap. f_equal. assert (X' := EX _ _ PD X). clear - PD R IN X'. induction PD as [|x y l l' C D IH]; cbn in *; [reflexivity|]. inversion R; subst. apply orb_false_iff in X' as [X1 X2].
      f_equal; [apply (IN x y); [assumption|exact C|apply qeqb_false, X1]|apply IH; assumption].
    + clear - R X M1. unfold amap; cbn. induction R as [|x l RX RL IH]; cbn in *; constructor; apply orb_false_iff in X as [X1 X2]; [apply rng_inv; [exact M1|exact RX|apply qeqb_false, X1]|apply IH, X2].
  - inversion E; subst h. cbn [pot data amap]. split.
    + f_equal. f_equal. unfold amap. f_equal. clear - PD R IN. induction PD as [|x y l l' C D IH]; cbn in *; [reflexivity|]. inversion R; subst. f_equal; [|apply IH; assumption].
      destruct (qeqb y 0%Qc) eqn:Y; [reflexivity|]. apply (IN x y); [assumption|exact C|apply qeqb_false, Y].
    + clear - R M1. unfold amap; cbn. induction R as [|x l RX RL IH]; cbn in *; constructor; [|exact IH]. destruct (qeqb x 0%Qc) eqn:X; [left; reflexivity|]. apply rng_inv; [exact M1|exact RX|apply qeqb_false, X].
Qed.

Lemma div_in M N j k f f' g g' h : (1 <= M)%Qc -> (1 <= N)%Qc -> near dom j f f' -> near dom k g g' -> fdiv f g = Ok h -> Forall (rng M) (data (pot f)) -> Forall (rng N) (data (pot g)) ->
  (M * N * power (1 + ulp) (j + k + 1) <= top)%Qc -> div_by lmul linv f' g' = div_by rmul rinvert f' g' /\ Forall (rng (M * N)) (data (pot h)).
Proof.
  intros M1 N1 A C E RF RG F. unfold fdiv in E. unfold div_by. rewrite (near_keys _ _ _ _ A), (near_keys _ _ _ _ C). destruct (subset _ _); [|discriminate].
  destruct (finvert g) as [i|] eqn:EI; cbn [rbind] in E; [|discriminate]. destruct (near_inv _ _ _ _ _ C EI) as (i' & EI' & NI).
  assert (FN : (N * power (1 + ulp) k <= top)%Qc).
  { eapply Qcle_trans; [|exact F]. apply le_mul; [apply ge_nonneg, N1|apply pw_nonneg, one_ge| |apply pw_le; [apply one_ge|lia]]. rewrite <- (Qcmult_1_l N) at 1. apply Qcmult_le_compat_r; [exact M1|apply ge_nonneg, N1]. }
  destruct (inv_in N k g g' i N1 C EI RG FN) as [EQ RI]. rewrite EQ, EI'. cbn [rbind].
  assert (RH := mul_rng M N _ _ _ _ _ _ _ M1 N1 A NI E RF RI). split; [|exact RH].
  apply (mul_in (M * N)%Qc _ _ _ _ _ _ _ (le_1_mul _ _ M1 N1) A NI E RH). rewrite Nat.add_assoc. exact F.
Qed.

Lemma margs_in vs f f' p s k h : near3 p s k f f' -> fits p (s + preds dom vs) (k + lens dom vs) -> foldM marginalize1 vs f = Ok h ->
  exists h', foldM lmarg vs f' = Ok h' /\ foldM rmarg vs f' = Ok h' /\ near3 p (s + preds dom vs) (k + lens dom vs) h h'.
Proof.
  revert f f' s k. induction vs as [|v vs IH]; intros f f' s k N F E; cbn [foldM] in *.
  - inversion E; subst. eexists; split; [reflexivity|]. split; [reflexivity|]. eapply near3_mono; [exact P1| | | |exact N]; lia.
  - assert (PV : preds dom (v :: vs) = pred (length (dom v)) + preds dom vs) by reflexivity. assert (LV : lens dom (v :: vs) = length (dom v) + lens dom vs) by reflexivity. rewrite PV, LV in *.
    destruct (marginalize1 f v) as [g|] eqn:M; cbn [rbind] in E; [|discriminate].
    destruct (marg3 P P1 dom _ _ _ _ _ _ _ N (marg_In _ _ _ M) ltac:(eapply (fits_down P P1); [| | |exact F]; lia) M) as (g' & M1 & M2 & NG). rewrite M1, M2. cbn [rbind].
    destruct (IH _ _ _ _ NG) as (h' & E1 & E2 & NH); [eapply (fits_down P P1); [| | |exact F]; lia|exact E|]. exists h'. split; [exact E1|]. split; [exact E2|]. eapply near3_mono; [exact P1| | | |exact NH]; lia.
Qed.

Notation Z := (preds dom (bnames b)).
Notation W := (sumn (sizes b (bnames b))).
Lemma preds_bound vs : NoDup vs -> preds dom vs <= Z.
Proof.
  intros ND. assert (H : preds dom vs = preds dom (filter (fun v => mem v (bnames b)) vs)).
  { clear ND. unfold preds. induction vs as [|v vs IH]; [reflexivity|]. cbn [filter]. destruct (mem v (bnames b)) eqn:M; cbn [map sumn fold_right] in *.
    - f_equal. exact IH.
    - unfold sumn in IH. rewrite IH. replace (length (dom v)) with 0; [reflexivity|]. unfold values_of. destruct (find _ (bnodes b)) as [n|] eqn:F; [|reflexivity].
      apply find_some in F as [F1 F2]. apply String.eqb_eq in F2. apply mem_nIn in M. exfalso. apply M. unfold bnames. apply in_map_iff. exists n. split; [congruence|exact F1]. }
  rewrite H. assert (ND2 : NoDup (filter (fun v => mem v (bnames b)) vs)) by (apply NoDup_filter, ND).
  assert (I : incl (filter (fun v => mem v (bnames b)) vs) (bnames b)) by (intros v Hv; apply filter_In in Hv as [_ Hv]; apply mem_In, Hv).
  revert ND2 I. generalize (filter (fun v => mem v (bnames b)) vs) as l. generalize (bnames b) as m. clear. intros m l. revert m.
  induction l as [|v l IH]; intros m ND I; [cbn; lia|]. inversion ND; subst. destruct (in_split v m (I v (or_introl eq_refl))) as (m1 & m2 & ->).
  assert (IH' : preds dom l <= preds dom (m1 ++ m2)).
  { apply IH; [assumption|]. intros x Hx. assert (Hx' := I x (or_intror Hx)). apply in_app_iff in Hx' as [Hx'|[->|Hx']]; [apply in_app_iff; auto|contradiction|apply in_app_iff; auto]. }
  unfold preds in *. rewrite map_app, sumn_app in *. cbn [map sumn fold_right]. unfold sumn in *. lia.
Qed.
Lemma lens_bound vs : NoDup vs -> lens dom vs <= W.
Proof. exact (sizes_bound b vs). Qed.

Lemma margs_all vs f f' p s k h : near3 p s k f f' -> NoDup vs -> fits p (s + Z) (k + W) -> marginalize f vs = Ok h ->
  exists h', marginalize_by lmarg f' vs = Ok h' /\ marginalize_by rmarg f' vs = Ok h' /\ near3 p (s + Z) (k + W) h h'.
Proof.
  intros N ND F E. assert (A := preds_bound vs ND). assert (B := lens_bound vs ND).
  destruct (margs_in vs f f' p s k h N) as (h' & E1 & E2 & NH); [eapply (fits_down P P1); [| | |exact F]; lia|exact E|].
  exists h'. split; [exact E1|]. split; [exact E2|]. eapply near3_mono; [exact P1| | | |exact NH]; lia.
Qed.
End Facts.
