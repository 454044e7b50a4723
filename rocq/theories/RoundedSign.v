(** Rounding to 53 bits treats the signs alike. *)
From Verif Require Import Base BaseFacts Rounded RoundedDouble.
From Coq Require Import QArith Qround Qpower Lqa Lia.
Local Open Scope Q_scope.

Lemma this_opp (x : Qc) : this (- x)%Qc == - this x.
Proof. unfold Qcopp. apply this_Q2Qc. Qed.
Lemma round_bits_neg prec x : this x < 0 -> round_bits prec x = Qcopp (Q2Qc (round_pos prec (- this x))).
Proof. intros H. unfold round_bits. assert (E : Qcompare 0 (this x) = Gt) by (apply (proj1 (Qgt_alt 0 (this x))), H). rewrite E. reflexivity. Qed.
Lemma round_bits_opp prec : (0 < prec)%Z -> forall x, round_bits prec (- x)%Qc = (- round_bits prec x)%Qc.
Proof.
  intros P x. assert (E := this_opp x). destruct (Q_dec 0 (this x)) as [[H|H]|H].
  - rewrite (round_bits_pos prec x H), (round_bits_neg prec (- x)%Qc) by lra. f_equal. apply Qc_is_canon. rewrite !this_Q2Qc. apply round_pos_comp; first [exact P|lra].
  - rewrite (round_bits_neg prec x) by lra. rewrite (round_bits_pos prec (- x)%Qc), Qcopp_involutive by lra. apply Qc_is_canon. rewrite !this_Q2Qc. apply round_pos_comp; first [exact P|lra].
  - rewrite !round_bits_zero by lra. reflexivity.
Qed.
