(** Whole numbers that doubles hold exactly. *)
From Verif Require Import Base BaseFacts Rounded RoundedDouble RoundedSpec RoundedSampleSpec.
From Coq Require Import QArith Qround Qpower Lqa Lia.
Local Open Scope Q_scope.

Lemma round_whole prec z : (0 < prec)%Z -> (0 < z <= 2 ^ prec)%Z -> round_pos prec (inject_Z z) == inject_Z z.
Proof.
  intros P [A B]. assert (X : 0 < inject_Z z) by (change 0 with (inject_Z 0); rewrite <- Zlt_Qlt; exact A).
  destruct (Z.eq_dec z (2 ^ prec)) as [E|E].
  - assert (Q : inject_Z z == two ^ prec) by (rewrite p2_Z, E by lia; reflexivity).
    assert (EX : expo (inject_Z z) = prec) by (apply expo_unique; rewrite Q; [apply Qle_refl|rewrite p2_S; assert (H := p2_pos prec); lra]).
    apply (round_grid prec _ (2 ^ (prec - 1))); [exact X|]. rewrite <- (proj1 (on_grid prec P _ _ EX)). exact Q.
  - destruct (expo_spec _ X) as [C D].
    assert (L : (expo (inject_Z z) < prec)%Z) by (apply p2_lt_inv; apply Qle_lt_trans with (inject_Z z); [exact C|]; rewrite p2_Z by lia; rewrite <- Zlt_Qlt; lia).
    apply (round_grid prec _ (z * 2 ^ (prec - 1 - expo (inject_Z z)))); [exact X|]. unfold grid. rewrite inject_Z_mult, <- p2_Z by lia. rewrite <- Qmult_assoc, <- p2_plus.
    replace (prec - 1 - expo (inject_Z z) + (expo (inject_Z z) - prec + 1))%Z with 0%Z by lia. change (two ^ 0) with 1. ring.
Qed.

Lemma double_counts n : (Z.of_nat n <= 2 ^ 53)%Z -> counts_exactly (RD := double) n.
Proof.
  intros H k K. change (round_bits 53 (qnat k) = qnat k). assert (T : this (qnat k) == inject_Z (Z.of_nat k)) by apply this_Q2Qc. destruct k as [|k].
  - apply round_bits_zero. rewrite T. reflexivity.
  - assert (P : 0 < inject_Z (Z.of_nat (S k))) by (change 0 with (inject_Z 0); rewrite <- Zlt_Qlt; lia). rewrite round_bits_pos by (rewrite T; exact P). apply Qc_is_canon. rewrite this_Q2Qc.
    rewrite T at 2. etransitivity; [apply round_pos_comp; [exact p53|exact T|rewrite T; exact P]|]. apply round_whole; [reflexivity|]. lia.
Qed.

Lemma double_counts_not n : (2 ^ 53 < Z.of_nat n)%Z -> ~ counts_exactly (RD := double) n.
Proof.
  remember (2 ^ 53)%Z as p eqn:P. intros H C. assert (P0 : (0 <= p)%Z) by (rewrite P; discriminate).
  assert (E : (Z.to_nat (p + 1) <= n)%nat) by lia. specialize (C (Z.to_nat (p + 1)) E). unfold qnat in C. rewrite Z2Nat.id in C by lia. rewrite P in C.
  apply (f_equal this) in C. vm_compute in C. discriminate.
Qed.
