(** IEEE 754 double precision with gradual underflow.  Overflow is not modelled: above
    2^1024 the numbers of this file are still finite. *)
From Verif Require Import Base BaseFacts Rounded RoundedDouble Ranged.
From Coq Require Import QArith.

Definition low : Qc := Q2Qc (1 # (2 ^ 1022)%positive).
Definition high : Qc := Q2Qc (inject_Z (2 ^ 1022)).
Definition step : positive := (2 ^ 1074)%positive.

(** Below 2^-1022 the nearest multiple of 2^-1074, ties to even. *)
Definition ieee_round (x : Qc) : Qc :=
  if qltb x low then Q2Qc (near_even (this x * inject_Z (Zpos step)) # step) else round_bits 53 x.

Lemma low_high : (low * high = 1)%Qc.
Proof. apply Qc_is_canon. vm_compute. reflexivity. Qed.
Lemma ieee_zero : ieee_round 0 = 0%Qc.
Proof. apply Qc_is_canon. vm_compute. reflexivity. Qed.
Lemma ieee_inside x : (1 <= x * high -> x <= high -> ieee_round x = @rnd double x)%Qc.
Proof.
  intros A _. unfold ieee_round. destruct (qltb x low) eqn:E; [|reflexivity]. exfalso. apply qltb_true in E.
  apply (Qclt_not_le (x * high)%Qc 1%Qc); [|exact A]. rewrite <- low_high. apply Qcmult_lt_compat_r; [reflexivity|exact E].
Qed.
Definition ieee : @Limits double := {| lim := ieee_round; top := high; lim_zero := ieee_zero; lim_inside := ieee_inside |}.
