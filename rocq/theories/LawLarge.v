(** The spread of the averages over a chain. *)
From Coq Require Import Field QArith.
From Verif Require Import Base NDArray Factor Exact Spec OrderSpec BaseFacts FactorProofs SpecFacts Sampling MCSpec MCFacts MCProof MCTop MCChain MCForward MCMarginal
  LawSpec LawCount LawKernel LawOne LawChain LawPost LawMean LawErgodic LawForward LawMCMC LawEstimate LawTop.

Definition rprog := dict string -> list (Qc * nat) -> Qc.
Definition rfollow (c : nat) (F : prog) (P : rprog) : rprog :=
  fun x l => match F x (firstn c l) with Ok s => P s (skipn c l) | Err _ => 0%Qc end.

Section Mean.
Variable N : nat.
Hypothesis N0 : 0 < N.
Notation NN := (qnat N * qnat N)%Qc.
Lemma NNc c : powc NN c <> 0%Qc.
Proof. apply powc_neq0, NN_neq0. exact N0. Qed.

Definition rmean (c : nat) (P : rprog) (x : dict string) : Qc := (qsum (map (P x) (streams N c)) / powc NN c)%Qc.

Lemma rmean_eq c P x : qsum (map (P x) (streams N c)) = (powc NN c * rmean c P x)%Qc.
Proof. unfold rmean, Qcdiv. rewrite (Qcmult_comm (powc NN c)), <- Qcmult_assoc, (Qcmult_comm (/ _)), Qcmult_inv_r; [ring|apply NNc]. Qed.

Lemma eq_rmean c P x r : qsum (map (P x) (streams N c)) = (powc NN c * r)%Qc -> rmean c P x = r.
Proof. intros E. unfold rmean, Qcdiv. rewrite E, (Qcmult_comm (powc NN c)), <- Qcmult_assoc, Qcmult_inv_r; [ring|apply NNc]. Qed.

Lemma rmean_follow c d F P x : rmean (c + d) (rfollow c F P) x = mean N c F (rmean d P) x.
Proof.
  apply eq_rmean. rewrite powc_add. transitivity (powc NN d * (powc NN c * mean N c F (rmean d P) x))%Qc; [|ring].
  rewrite <- (eq_mean N N0), <- qsum_mult_l, streams_split. apply qsum_map_ext. intros l1 L1.
  pose proof (proj1 (Forall_forall _ _) (streams_length N c) l1 L1) as LE. unfold rfollow.
  transitivity (qsum (map (fun l2 => match F x l1 with Ok s => P s l2 | Err _ => 0%Qc end) (streams N d))).
  - apply qsum_map_ext. intros l2 _. rewrite <- LE, firstn_app, Nat.sub_diag, firstn_all, app_nil_r, skipn_app, Nat.sub_diag, skipn_all. reflexivity.
  - destruct (F x l1) as [s|]; cbn [val]; [apply rmean_eq|]. rewrite qsum_zero by reflexivity. ring.
Qed.

Lemma rmean_ext c P Q x : (forall l, length l = c -> P x l = Q x l) -> rmean c P x = rmean c Q x.
Proof.
  intros E. unfold rmean. f_equal. apply qsum_map_ext. intros l L. apply E. exact (proj1 (Forall_forall _ _) (streams_length N c) l L).
Qed.

Lemma rmean_plus c P Q x : rmean c (fun x l => P x l + Q x l)%Qc x = (rmean c P x + rmean c Q x)%Qc.
Proof. apply eq_rmean. rewrite qsum_plus, !rmean_eq. ring. Qed.

Lemma rmean_mult c a P x : rmean c (fun x l => a * P x l)%Qc x = (a * rmean c P x)%Qc.
Proof. apply eq_rmean. rewrite qsum_mult_l, rmean_eq. ring. Qed.

Lemma rmean_const c a x : rmean c (fun _ _ => a) x = a.
Proof. apply eq_rmean. rewrite qsum_const, streams_count. ring. Qed.
Lemma rmean_here c (f : dict string -> Qc) x : rmean c (fun s _ => f s) x = f x.
Proof. apply eq_rmean. rewrite qsum_const, streams_count. ring. Qed.

Section Chain.
Variable F : prog.
Variable c : nat.
Variable z : dict string -> Qc.

Fixpoint tally (k : nat) : rprog :=
  match k with O => fun _ _ => 0%Qc | S k' => rfollow c F (fun s l => z s + tally k' s l)%Qc end.
Notation T := (mean N c F).
Definition square (P : rprog) : rprog := fun x l => (P x l * P x l)%Qc.
Notation E k := (rmean (k * c) (tally k)).
Notation G k := (rmean (k * c) (square (tally k))).

Lemma E_step k x : E (S k) x = T (fun s => z s + E k s)%Qc x.
Proof. cbn [Nat.mul tally]. rewrite rmean_follow. apply mean_ext. intros s. rewrite (rmean_plus (k * c) (fun s _ => z s)). now rewrite rmean_here. Qed.

Lemma G_step k x : G (S k) x = T (fun s => z s * z s + (1 + 1) * z s * E k s + G k s)%Qc x.
Proof.
  cbn [Nat.mul tally]. transitivity (rmean (c + k * c) (rfollow c F (fun s l => (z s + tally k s l) * (z s + tally k s l))%Qc) x).
  - apply rmean_ext. intros l _. unfold square, rfollow. destruct (F x (firstn c l)); [reflexivity|ring].
  - rewrite rmean_follow. apply mean_ext. intros s.
    rewrite <- (rmean_const (k * c) (z s * z s)%Qc s) at 1. rewrite <- rmean_mult, <- !rmean_plus. apply rmean_ext. intros l _. unfold square. ring.
Qed.

Variable W : list (dict string).
Hypothesis TA : averaging W T.

Lemma T_le f hi : (forall s, In s W -> (f s <= hi)%Qc) -> forall x, In x W -> (T f x <= hi)%Qc.
Proof.
  intros H x X. assert (P : (0 <= T (fun s => (-(1)) * f s + hi)%Qc x)%Qc).
  { apply (av_mono _ _ TA); [|exact X]. intros s S. specialize (H s S). apply -> Qcle_minus_iff in H. replace (- (1) * f s + hi)%Qc with (hi + - f s)%Qc by ring. exact H. }
  rewrite (av_affine _ _ TA) in P by exact X. apply Qcle_minus_iff. replace (hi + - T f x)%Qc with (- (1) * T f x + hi)%Qc by ring. exact P.
Qed.

Variable C : Qc.
Hypothesis z1 : forall s, In s W -> (-(1) <= z s)%Qc /\ (z s <= 1)%Qc.
Hypothesis EC : forall k s, In s W -> (- C <= E k s)%Qc /\ (E k s <= C)%Qc.

Lemma prod_le a e : (-(1) <= a)%Qc -> (a <= 1)%Qc -> (- C <= e)%Qc -> (e <= C)%Qc -> (a * e <= C)%Qc.
Proof.
  intros A1 A2 E1 E2. destruct (Qclt_le_dec e 0) as [L|L].
  - apply Qcle_trans with (- e)%Qc; [|apply Qcle_minus_iff; replace (C + - - e)%Qc with (e + - - C)%Qc by ring; now apply -> Qcle_minus_iff in E1].
    apply Qcle_minus_iff. replace (- e + - (a * e))%Qc with ((1 + a) * (- e))%Qc by ring. apply Qcmult_nonneg.
    + apply -> Qcle_minus_iff in A1. now replace (1 + a)%Qc with (a + - - (1))%Qc by ring.
    + apply Qclt_le_weak in L. apply -> Qcle_minus_iff in L. now replace (- e)%Qc with (0 + - e)%Qc by ring.
  - apply Qcle_trans with e; [|exact E2]. rewrite <- (Qcmult_1_l e) at 2. now apply Qcmult_le_compat_r.
Qed.

Lemma square_le a : (-(1) <= a)%Qc -> (a <= 1)%Qc -> (a * a <= 1)%Qc.
Proof.
  intros A1 A2. apply Qcle_minus_iff. replace (1 + - (a * a))%Qc with ((1 + - a) * (a + - - (1)))%Qc by ring. apply Qcmult_nonneg; now apply -> Qcle_minus_iff.
Qed.

Lemma G_bound k : forall x, In x W -> (G k x <= qnat k * (1 + (1 + 1) * C))%Qc.
Proof.
  induction k as [|k IH]; intros x X.
  - cbn [Nat.mul tally]. rewrite (rmean_ext 0 _ (fun _ _ => 0)%Qc) by (intros; unfold square; ring). rewrite rmean_const. change (qnat 0) with 0%Qc.
    replace (0 * _)%Qc with 0%Qc by ring. apply Qcle_refl.
  - rewrite G_step. apply T_le; [|exact X]. intros s S. rewrite qnat_S. destruct (z1 s S) as [A1 A2]. destruct (EC k s S) as [E1 E2].
    replace ((1 + qnat k) * (1 + (1 + 1) * C))%Qc with (1 + (1 + 1) * C + qnat k * (1 + (1 + 1) * C))%Qc by ring.
    apply Qcplus_le_compat; [|now apply IH]. apply Qcplus_le_compat; [now apply square_le|].
    rewrite <- Qcmult_assoc, !(Qcmult_comm (1 + 1)). apply Qcmult_le_compat_r; [now apply prod_le|discriminate].
Qed.
End Chain.
End Mean.

(** ** The bias that is summed up *)
Lemma bigsum_split a k F : bigsum (a + k) F = (bigsum a F + bigsum k (fun i => F (a + i)%nat))%Qc.
Proof.
  revert F. induction a as [|a IH]; intros F; [cbn [Nat.add]; change (bigsum 0 F) with 0%Qc; symmetry; apply Qcplus_0_l|].
  cbn [Nat.add]. rewrite !bigsum_S, IH. ring.
Qed.

Lemma geometric e r K : 0 < r -> (0 < e)%Qc -> (e <= 1)%Qc -> (e * bigsum (K * r) (fun j => power (1 - e) (j / r)) <= qnat r)%Qc.
Proof.
  intros R E0 E1. induction K as [|K IH].
  - cbn [Nat.mul]. unfold bigsum. cbn [seq map qsum]. rewrite Qcmult_0_r. apply (qnat_le 0). lia.
  - cbn [Nat.mul]. rewrite bigsum_split.
    rewrite (bigsum_ext r _ (fun _ => 1)%Qc) by (intros j J; rewrite Nat.div_small by exact J; reflexivity).
    rewrite (bigsum_ext (K * r) _ (fun j => (1 - e) * power (1 - e) (j / r))%Qc).
    + rewrite bigsum_mult_l. unfold bigsum at 1. rewrite qsum_const, seq_length.
      replace (e * (qnat r * 1 + (1 - e) * bigsum (K * r) (fun j => power (1 - e) (j / r))))%Qc with (e * qnat r + (1 - e) * (e * bigsum (K * r) (fun j => power (1 - e) (j / r))))%Qc by ring.
      replace (qnat r) with (e * qnat r + (1 - e) * qnat r)%Qc at 2 by ring. apply Qcplus_le_compat; [apply Qcle_refl|]. rewrite !(Qcmult_comm (1 - e)).
      apply Qcmult_le_compat_r; [exact IH|]. now apply -> Qcle_minus_iff in E1.
    + intros j J. replace ((r + j) / r) with (S (j / r)); [reflexivity|]. replace (r + j) with (1 * r + j) by lia. rewrite Nat.div_add_l by lia. reflexivity.
Qed.

Lemma bigsum_le n F G : (forall i, i < n -> (F i <= G i)%Qc) -> (bigsum n F <= bigsum n G)%Qc.
Proof. intros H. unfold bigsum. apply qsum_le. intros i I. apply in_seq in I. apply H. lia. Qed.

Lemma bias_sum e r k : 0 < r -> (0 < e)%Qc -> (e <= 1)%Qc -> (bigsum k (fun j => power (1 - e) (S j / r)) <= qnat r / e)%Qc.
Proof.
  intros R E0 E1. assert (C0 : (0 <= 1 - e)%Qc) by (now apply -> Qcle_minus_iff in E1).
  assert (C1 : (1 - e <= 1)%Qc) by (apply Qcle_minus_iff; replace (1 + - (1 - e))%Qc with e by ring; now apply Qclt_le_weak).
  apply Qcle_trans with (bigsum (k * r) (fun j => power (1 - e) (j / r))).
  - apply Qcle_trans with (bigsum k (fun j => power (1 - e) (j / r))).
    + apply bigsum_le. intros i _. apply power_antitone; auto. apply Nat.div_le_mono; lia.
    + replace (k * r) with (k + (k * r - k)) by nia. rewrite bigsum_split. rewrite <- (Qcplus_0_r (bigsum k _)) at 1. apply Qcplus_le_compat; [apply Qcle_refl|].
      apply bigsum_nonneg. intros i _. now apply power_nonneg.
  - apply (Qcmult_lt_0_le_reg_r _ _ e E0). unfold Qcdiv. rewrite <- (Qcmult_assoc (qnat r)), (Qcmult_comm (/ e)), Qcmult_inv_r, Qcmult_1_r.
    + rewrite Qcmult_comm. now apply geometric.
    + intros Z. rewrite Z in E0. now apply Qc_lt_irrefl in E0.
Qed.

Section Bias.
Variable N : nat.
Hypothesis N0 : 0 < N.
Variable F : prog.
Variable c : nat.
Variable W : list (dict string).
Notation T := (mean N c F).
Hypothesis TA : averaging W T.

Lemma T_plus f g x : T (fun s => f s + g s)%Qc x = (T f x + T g x)%Qc.
Proof.
  apply mean_eq; [exact N0|]. rewrite Qcmult_plus_distr_r, <- !(eq_mean N N0), <- qsum_plus. apply qsum_map_ext. intros l _. destruct (F x l); cbn [val]; ring.
Qed.

Lemma T_bigsum (f : nat -> dict string -> Qc) k x : T (fun s => bigsum k (fun j => f j s)) x = bigsum k (fun j => T (f j) x).
Proof.
  revert f. induction k as [|k IH]; intros f.
  - unfold bigsum. cbn [seq map qsum]. apply mean_eq; [exact N0|]. rewrite qsum_zero; [ring|]. intros l _. destruct (F x l); reflexivity.
  - rewrite bigsum_S, <- IH, <- T_plus. apply mean_ext. intros s. now rewrite bigsum_S.
Qed.

Variable h : dict string -> Qc.
Variable mu : Qc.
Notation z := (fun s => h s - mu)%Qc.

Lemma E_sum k : forall x, In x W -> rmean N (k * c) (tally F c z k) x = bigsum k (fun j => iter T (S j) h x - mu)%Qc.
Proof.
  induction k as [|k IH]; intros x X; [cbn [Nat.mul tally]; now rewrite rmean_const|]. rewrite (E_step N N0).
  rewrite (av_ext _ _ TA _ (fun s => z s + bigsum k (fun j => iter T (S j) h s - mu))%Qc) by (try exact X; intros s S; now rewrite IH).
  rewrite T_plus, T_bigsum, bigsum_S. f_equal.
  - cbn [iter]. rewrite (av_ext _ _ TA _ (fun s => 1 * h s + - mu)%Qc) by (try exact X; intros; ring). rewrite (av_affine _ _ TA) by exact X. ring.
  - apply bigsum_ext. intros j _. rewrite (av_ext _ _ TA _ (fun s => 1 * iter T (S j) h s + - mu)%Qc) by (try exact X; intros; ring).
    rewrite (av_affine _ _ TA) by exact X. cbn [iter]. ring.
Qed.

Variable e : Qc.
Variable r : nat.
Hypothesis R : 0 < r.
Hypothesis E0 : (0 < e)%Qc.
Hypothesis E1 : (e <= 1)%Qc.
Hypothesis NEAR : forall k x, In x W -> (mu - power (1 - e) (k / r) <= iter T k h x)%Qc /\ (iter T k h x <= mu + power (1 - e) (k / r))%Qc.

Lemma E_bound k x : In x W -> (- (qnat r / e) <= rmean N (k * c) (tally F c z k) x)%Qc /\ (rmean N (k * c) (tally F c z k) x <= qnat r / e)%Qc.
Proof.
  intros X. rewrite E_sum by exact X. pose proof (bias_sum e r k R E0 E1) as B. split.
  - apply Qcle_trans with (- bigsum k (fun j => power (1 - e) (S j / r)))%Qc; [now apply Qcopp_le_compat|].
    apply Qcle_trans with (bigsum k (fun j => (-(1)) * power (1 - e) (S j / r))%Qc); [rewrite bigsum_mult_l; replace (- (1) * _)%Qc with (- bigsum k (fun j => power (1 - e) (S j / r)))%Qc by ring; apply Qcle_refl|].
    apply bigsum_le. intros j _. destruct (NEAR (S j) x X) as [A _]. apply -> Qcle_minus_iff in A. apply Qcle_minus_iff.
    replace (iter T (S j) h x - mu + - (- (1) * power (1 - e) (S j / r)))%Qc with (iter T (S j) h x + - (mu - power (1 - e) (S j / r)))%Qc by ring. exact A.
  - eapply Qcle_trans; [|exact B]. apply bigsum_le. intros j _. destruct (NEAR (S j) x X) as [_ A]. apply -> Qcle_minus_iff in A. apply Qcle_minus_iff.
    replace (power (1 - e) (S j / r) + - (iter T (S j) h x - mu))%Qc with (mu + power (1 - e) (S j / r) + - iter T (S j) h x)%Qc by ring. exact A.
Qed.

Hypothesis h01 : forall s, In s W -> (0 <= h s)%Qc /\ (h s <= 1)%Qc.
Hypothesis mu01 : (0 <= mu)%Qc /\ (mu <= 1)%Qc.

Lemma spread k x : In x W -> (rmean N (k * c) (square (tally F c z k)) x <= qnat k * (1 + (1 + 1) * (qnat r / e)))%Qc.
Proof.
  apply (G_bound N N0 F c z W TA).
  - intros s S. destruct (h01 s S) as [A B], mu01 as [M1 M2]. split.
    + replace (- (1))%Qc with (0 - 1)%Qc by ring. apply Qcplus_le_compat; [exact A|now apply Qcopp_le_compat].
    + replace 1%Qc with (1 - 0)%Qc by ring. apply Qcplus_le_compat; [exact B|now apply Qcopp_le_compat].
  - exact E_bound.
Qed.
End Bias.
