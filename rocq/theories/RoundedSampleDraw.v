(** Comparisons of a random number with a rounded probability: how many of [N] equally
    spaced numbers can make a difference. *)
From Coq Require Import Field.
From Verif Require Import Base NDArray Factor Exact Spec BaseFacts FactorProofs SpecFacts Sampling MCSpec MCFacts LawSpec LawCount LawErgodic
  Rounded RoundedSpec RoundedProof RoundedTables RoundedTop RoundedSample RoundedSampleSpec.

Lemma count_spread (B : nat -> bool) w n : (0 <= w)%Qc -> (forall i j, i <= j -> j < n -> B i = true -> B j = true -> (qnat (j - i) <= w)%Qc) ->
  (qsum (map (fun j => ind (B j)) (seq 0 n)) <= w + 1)%Qc.
Proof.
  intros W H.
  assert (G : forall k, k <= n -> qsum (map (fun j => ind (B j)) (seq 0 k)) = 0%Qc \/
    exists i j, i <= j /\ j < k /\ B i = true /\ B j = true /\ (qsum (map (fun j => ind (B j)) (seq 0 k)) <= qnat (j - i) + 1)%Qc).
  { induction k as [|k IH]; intros K; [now left|]. rewrite seq_S, map_app, qsum_app. cbn [Nat.add map qsum].
    destruct (IH ltac:(lia)) as [Z|(i & j & I1 & I2 & I3 & I4 & I5)].
    - rewrite Z. destruct (B k) eqn:E; [|left; cbn [ind]; ring]. right. exists k, k. repeat split; auto; try lia.
      rewrite Nat.sub_diag, qnat_0. cbn [ind]. replace (0 + (1 + 0))%Qc with (0 + 1)%Qc by ring. apply Qcle_refl.
    - destruct (B k) eqn:E; cbn [ind].
      + right. exists i, k. repeat split; auto; try lia. eapply Qcle_trans; [apply Qcplus_le_compat; [exact I5|apply Qcle_refl]|].
        apply Qcle_trans with (qnat (j - i + 1) + 1)%Qc; [|apply Qcplus_le_compat; [apply qnat_le; lia|apply Qcle_refl]].
        rewrite qnat_add. change (qnat 1) with 1%Qc. replace (qnat (j - i) + 1 + (1 + 0))%Qc with (qnat (j - i) + 1 + 1)%Qc by ring. apply Qcle_refl.
      + right. exists i, j. repeat split; auto; try lia. replace (qsum (map (fun j0 => ind (B j0)) (seq 0 k)) + (0 + 0))%Qc with (qsum (map (fun j0 => ind (B j0)) (seq 0 k))) by ring. exact I5. }
  destruct (G n (Nat.le_refl n)) as [->|(i & j & I1 & I2 & I3 & I4 & I5)].
  - apply Qcplus_nonneg; [exact W|discriminate].
  - eapply Qcle_trans; [exact I5|]. apply Qcplus_le_compat; [|apply Qcle_refl]. now apply H.
Qed.

Section Draw.
Context {RD : Rounding}.
Local Open Scope Qc_scope.
Notation P m := (RoundedSpec.power (1 + ulp) m).

(** [x] and [y] are so close that the comparison of rounded values may differ. *)
Definition nearby (m : nat) (x y : Qc) : bool := negb (qleb (P m * x) y || qltb (P m * y) x).

Lemma P_pos m : 0 < P m.
Proof. eapply Qclt_le_trans; [|apply power_ge]. reflexivity. Qed.

Lemma cancel_le p x y : 0 < p -> p * x <= p * y -> x <= y.
Proof. intros H L. apply Qcmult_lt_0_le_reg_r with p; [exact H|]. now rewrite !(Qcmult_comm _ p). Qed.

Lemma cancel_lt p x y : 0 < p -> p * x < p * y -> x < y.
Proof.
  intros H L. apply Qcnot_le_lt. intros G. apply (Qclt_not_le _ _ L). apply Qcmult_le_l; [now apply Qclt_le_weak|exact G].
Qed.

Lemma grow m x : 0 <= x -> x <= P m * x.
Proof. intros H. rewrite <- (Qcmult_1_l x) at 1. apply Qcmult_le_compat_r; [apply power_ge|exact H]. Qed.

Lemma safe m j k x x' y y' : close j x x' -> close k y y' -> (j + k <= m)%nat -> nearby m x y = false -> qleb x' y' = qleb x y.
Proof.
  intros (X0 & X0' & X1 & X2) (Y0 & Y0' & Y1 & Y2) M H. unfold nearby in H. apply negb_false_iff, orb_prop in H.
  pose proof (power_le (j + k) m M) as L. rewrite power_add in L. destruct H as [H|H].
  - apply qleb_true in H. rewrite (proj2 (qleb_true x y)) by (eapply Qcle_trans; [now apply (grow m)|exact H]).
    apply qleb_true. apply (cancel_le (P k)); [apply P_pos|].
    apply Qcle_trans with (P k * (P j * x)); [apply Qcmult_le_l; [apply Qclt_le_weak, P_pos|exact X1]|].
    apply Qcle_trans with (P m * x); [|eapply Qcle_trans; [exact H|exact Y2]].
    rewrite Qcmult_assoc, (Qcmult_comm (P k)). now apply Qcmult_le_compat_r.
  - apply qltb_true in H. transitivity false.
    + apply not_true_iff_false. rewrite qleb_true. intros G. apply (Qclt_not_le _ _ H).
      eapply Qcle_trans; [exact X2|]. apply Qcle_trans with (P j * y'); [apply Qcmult_le_l; [apply Qclt_le_weak, P_pos|exact G]|].
      apply Qcle_trans with (P j * (P k * y)); [apply Qcmult_le_l; [apply Qclt_le_weak, P_pos|exact Y1]|].
      rewrite Qcmult_assoc. now apply Qcmult_le_compat_r.
    + symmetry. apply not_true_iff_false. rewrite qleb_true. intros G. apply (Qclt_not_le _ _ H). eapply Qcle_trans; [exact G|]. now apply grow.
Qed.

(** ** The roulette wheel *)
Lemma roulette_same M J K : forall values ws ws' j s s' r r', Forall2 (close K) ws ws' -> length values = length ws -> close (K + j) s s' -> close J r r' ->
  (J + (K + j + length ws) <= M)%nat -> (forall i, (i < length ws)%nat -> nearby M r (s + upto ws (S i)) = false) ->
  rroulette values ws' s' r' = roulette values ws s r.
Proof.
  induction values as [|x values IH]; intros ws ws' j s s' r r' F L C R LE H; [reflexivity|]. destruct F as [|w w' ws ws' W F]; [discriminate|].
  cbn [rroulette roulette length] in *.
  assert (C1 : close (K + j) (s + w) (s' + w')) by (apply close_add; [exact C|eapply close_mono; [|exact W]; lia]).
  assert (C2 : close (K + S j) (s + w) (rnd (s' + w'))).
  { replace (K + S j)%nat with (K + j + 1)%nat by lia. eapply close_trans; [exact C1|]. apply close_rnd. apply C1. }
  rewrite (safe M J (K + S j) r r' (s + w) (rnd (s' + w')) R C2).
  - destruct (qleb r (s + w)); [reflexivity|]. apply (IH ws ws' (S j)); auto; [lia|]. intros i I.
    replace (s + w + upto ws (S i)) with (s + upto (w :: ws) (S (S i))); [apply H; lia|]. unfold upto. cbn [firstn qsum]. ring.
  - lia.
  - replace (s + w) with (s + upto (w :: ws) 1); [apply H; lia|]. unfold upto. cbn [firstn qsum]. ring.
Qed.

Lemma fold_plus ws : forall s, fold_left Qcplus ws s = s + qsum ws.
Proof. induction ws as [|w ws IH]; intros s; cbn [fold_left qsum]; [ring|]. rewrite IH. ring. Qed.

Lemma rtotal_close K ws ws' : Forall2 (close K) ws ws' -> forall j s s', close (K + j) s s' ->
  close (K + j + length ws) (s + qsum ws) (fold_left (fun s w => rnd (s + w)) ws' s').
Proof.
  induction 1 as [|w w' ws ws' W F IH]; intros j s s' C; cbn [fold_left qsum length].
  - rewrite Qcplus_0_r, Nat.add_0_r. exact C.
  - replace (K + j + S (length ws))%nat with (K + S j + length ws)%nat by lia. rewrite Qcplus_assoc. apply IH.
    replace (K + S j)%nat with (K + j + 1)%nat by lia.
    assert (C1 : close (K + j) (s + w) (s' + w')) by (apply close_add; [exact C|eapply close_mono; [|exact W]; lia]).
    eapply close_trans; [exact C1|]. apply close_rnd. apply C1.
Qed.

Definition bad_wheel (M : nat) (ws : list Qc) (u : Qc) : bool := existsb (fun i => nearby M (u * qsum ws) (upto ws (S i))) (seq 0 (length ws)).

Lemma wheel_same M K values ws ws' u : Forall2 (close K) ws ws' -> length values = length ws -> 0 <= u -> (2 * (K + length ws) + 1 <= M)%nat -> bad_wheel M ws u = false ->
  rdraw values ws' u = roulette values ws 0 (u * fold_left Qcplus ws 0).
Proof.
  intros F L U LE B. unfold rdraw, rtotal. rewrite fold_plus, Qcplus_0_l.
  assert (C0 : close (K + 0) 0 0) by apply close_refl, Qcle_refl.
  pose proof (rtotal_close K ws ws' F 0 0 0 C0) as T. rewrite Qcplus_0_l, Nat.add_0_r in T.
  assert (C1 : close (0 + (K + length ws)) (u * qsum ws) (u * fold_left (fun s w => rnd (s + w)) ws' 0)) by (apply close_mul; [now apply close_refl|exact T]).
  apply (roulette_same M (0 + (K + length ws) + 1) K _ _ _ 0); auto.
  - eapply close_trans; [exact C1|]. apply close_rnd. apply C1.
  - lia.
  - intros i I. rewrite Qcplus_0_l. unfold bad_wheel in B. apply not_true_iff_false. intros E. apply not_true_iff_false in B. apply B.
    apply existsb_exists. exists i. split; [apply in_seq; lia|exact E].
Qed.

(** ** Counting *)
Lemma grid_step N i j : (0 < N)%nat -> (i <= j)%nat ->
  qnat (2 * j + 1) / qnat (2 * N) - qnat (2 * i + 1) / qnat (2 * N) = qnat (j - i) / qnat N.
Proof.
  intros N0 L. replace j with (i + (j - i))%nat at 1 by lia. rewrite !qnat_add, !qnat_mul, !qnat_add. change (qnat 2) with (1 + 1). change (qnat 1) with 1. field.
  split; [now apply qnat_neq0|discriminate].
Qed.

Lemma nearby_count N M T s : (0 < N)%nat -> 0 <= s -> s <= T ->
  qsum (map (fun u => ind (nearby M (u * T) s)) (grid N)) <= qnat N * (P (2 * M) - 1) + 1.
Proof.
  intros N0 S0 ST. unfold grid. rewrite map_map. set (u := fun j => qnat (2 * j + 1) / qnat (2 * N)).
  assert (T0 : 0 <= T) by (eapply Qcle_trans; eauto).
  assert (W : 0 <= P (2 * M) - 1) by (apply -> Qcle_minus_iff; apply power_ge).
  apply (count_spread (fun j => nearby M (u j * T) s)); [apply Qcmult_nonneg; [apply qnat_nonneg|exact W]|].
  intros i j I J B1 B2. unfold nearby in B1, B2. apply negb_true_iff, orb_false_iff in B1 as [B1 _], B2 as [_ B2].
  assert (A1 : s < P M * (u i * T)) by (apply Qcnot_le_lt; intros E; apply qleb_true in E; congruence).
  assert (A2 : u j * T <= P M * s) by (apply Qcnot_lt_le; intros E; apply qltb_true in E; congruence).
  destruct (Qc_eq_dec T 0) as [Z|Z].
  { exfalso. rewrite Z, Qcmult_0_r, Qcmult_0_r in A1. exact (Qclt_not_le _ _ A1 S0). }
  assert (TP : 0 < T) by now apply Qc_nonneg_neq0_pos.
  assert (U : u j <= P (2 * M) * u i).
  { apply (cancel_le T); [exact TP|]. rewrite (Qcmult_comm T). eapply Qcle_trans; [exact A2|].
    apply Qcle_trans with (P M * (P M * (u i * T))); [apply Qcmult_le_l; [apply Qclt_le_weak, P_pos|now apply Qclt_le_weak]|].
    replace (2 * M)%nat with (M + M)%nat by lia. rewrite power_add. replace (T * (P M * P M * u i)) with (P M * (P M * (u i * T))) by ring. apply Qcle_refl. }
  assert (Ui : u i <= 1). { assert (G : In (u i) (grid N)) by (unfold grid; apply (in_map u); apply in_seq; lia). apply grid_in in G. now apply Qclt_le_weak. }
  pose proof (grid_step N i j N0 I) as E. fold (u i) (u j) in E.
  assert (Q : qnat (j - i) = qnat N * (u j - u i)). { rewrite E. field. now apply qnat_neq0. }
  rewrite Q. apply Qcmult_le_l; [apply qnat_nonneg|].
  apply Qcle_trans with ((P (2 * M) - 1) * u i).
  - replace ((P (2 * M) - 1) * u i) with (P (2 * M) * u i - u i) by ring. apply Qcplus_le_compat; [exact U|apply Qcle_refl].
  - rewrite <- (Qcmult_1_r (P (2 * M) - 1)) at 2. apply Qcmult_le_l; [exact W|exact Ui].
Qed.

Lemma ind_existsb {A} (f : A -> bool) l : ind (existsb f l) <= qsum (map (fun x => ind (f x)) l).
Proof.
  induction l as [|x l IH]; [apply Qcle_refl|]. cbn [existsb map qsum]. destruct (f x); cbn [orb ind].
  - rewrite <- (Qcplus_0_r 1) at 1. apply Qcplus_le_compat; [apply Qcle_refl|]. apply qsum_nonneg, Forall_forall. intros q Hq.
    apply in_map_iff in Hq as (y & <- & _). destruct (f y); [discriminate|apply Qcle_refl].
  - rewrite Qcplus_0_l. exact IH.
Qed.

Lemma upto_bound ws i : Forall (fun w => 0 <= w) ws -> 0 <= upto ws i /\ upto ws i <= qsum ws.
Proof.
  intros F. unfold upto. rewrite <- (firstn_skipn i ws) in F. apply Forall_app in F as [F1 F2]. split; [now apply qsum_nonneg|].
  rewrite <- (firstn_skipn i ws) at 2. rewrite qsum_app. rewrite <- (Qcplus_0_r (qsum (firstn i ws))) at 1. apply Qcplus_le_compat; [apply Qcle_refl|now apply qsum_nonneg].
Qed.

Lemma sum_le {A} (f g : A -> Qc) l : (forall x, In x l -> f x <= g x) -> qsum (map f l) <= qsum (map g l).
Proof.
  intros H. induction l as [|x l IH]; [apply Qcle_refl|]. cbn [map qsum]. apply Qcplus_le_compat; [apply H; now left|apply IH; intros y Y; apply H; now right].
Qed.

Lemma wheel_count N M ws : (0 < N)%nat -> Forall (fun w => 0 <= w) ws ->
  qsum (map (fun u => ind (bad_wheel M ws u)) (grid N)) <= qnat (length ws) * (qnat N * (P (2 * M) - 1) + 1).
Proof.
  intros N0 F. eapply Qcle_trans; [apply sum_le; intros u _; apply ind_existsb|]. rewrite qsum_swap.
  rewrite <- (seq_length (length ws) 0) at 2. rewrite <- qsum_const. apply sum_le. intros i _.
  destruct (upto_bound ws (S i) F). now apply nearby_count.
Qed.

(** ** Acceptance *)
Lemma accept_close K p p' c c' : close K p p' -> close K c c' -> close (2 * K + 1) (accept_prob p c) (raccept p' c').
Proof.
  intros CP CC. unfold accept_prob, raccept. pose proof (close_pos _ _ _ CC) as PC.
  assert (ZE : qeqb c' 0 = qeqb c 0).
  { apply eq_true_iff_eq. rewrite !qeqb_true. destruct CC as (A & B & _). split; intros E; [destruct (Qc_eq_dec c 0) as [Z|Z]; [exact Z|]|destruct (Qc_eq_dec c' 0) as [Z|Z]; [exact Z|]]; exfalso.
    - assert (X : 0 < c) by now apply Qc_nonneg_neq0_pos. apply PC in X. rewrite E in X. now apply Qc_lt_irrefl in X.
    - assert (X : 0 < c') by now apply Qc_nonneg_neq0_pos. apply PC in X. rewrite E in X. now apply Qc_lt_irrefl in X. }
  rewrite ZE. destruct (qeqb c 0) eqn:Z; [apply close_refl; discriminate|].
  assert (C0 : 0 < c). { apply Qc_nonneg_neq0_pos; [apply CC|]. intros E. apply qeqb_true in E. congruence. }
  assert (CD : close (2 * K + 1) (p / c) (rnd (p' / c'))).
  { replace (2 * K + 1)%nat with (K + K + 1)%nat by lia. assert (C1 : close (K + K) (p / c) (p' / c')) by (apply close_mul; [exact CP|now apply close_inv]).
    eapply close_trans; [exact C1|]. apply close_rnd, C1. }
  cbv zeta. set (a := p / c) in *. set (a' := rnd (p' / c')) in *. set (k := (2 * K + 1)%nat) in *. destruct CD as (A0 & A0' & A1 & A2).
  assert (LT : forall x, qltb x 1 = false -> 1 <= x) by (intros x E; apply Qcnot_lt_le; intros H; apply qltb_true in H; congruence).
  destruct (qltb a 1) eqn:L, (qltb a' 1) eqn:L'.
  - exact (conj A0 (conj A0' (conj A1 A2))).
  - apply LT in L'. apply qltb_true in L. repeat split; auto; try discriminate; [eapply Qcle_trans; eauto|].
    rewrite Qcmult_1_r. eapply Qcle_trans; [apply Qclt_le_weak, L|apply power_ge].
  - apply LT in L. apply qltb_true in L'. repeat split; auto; try discriminate; [|eapply Qcle_trans; eauto].
    rewrite Qcmult_1_r. eapply Qcle_trans; [apply Qclt_le_weak, L'|apply power_ge].
  - apply close_refl. discriminate.
Qed.
End Draw.
