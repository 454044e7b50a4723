(** Reciprocals of a table of doubles: from 2^1024 - 2^970 on the quotient is infinite, and
    infinite entries become 0 (factor.py:277-279). *)
From Verif Require Import Base BaseFacts Rounded RoundedDouble Ranged RangedDouble RangedTree.
From Coq Require Import QArith.

(** From here on a quotient of doubles is infinite (numpy, factor.py:277). *)
Definition over : Qc := Q2Qc (inject_Z (2 ^ 1024 - 2 ^ 970)).
(** factor.py:277-278 of one entry. *)
Definition ieee_finite (x : Qc) : Qc := if qltb x over then ieee_round x else 0%Qc.
Lemma ieee_finite_inside x : (1 <= x * @top double ieee -> x <= @top double ieee -> ieee_finite x = @rnd double x)%Qc.
Proof.
  intros A B. unfold ieee_finite. destruct (qltb x over) eqn:E; [exact (ieee_inside x A B)|]. exfalso.
  assert (L : (x < over)%Qc) by (eapply Qcle_lt_trans; [exact B|vm_compute; reflexivity]). apply qltb_true in L. congruence.
Qed.
Definition ieee_inv : @Inverting double ieee := {| finite := ieee_finite; finite_inside := ieee_finite_inside |}.
