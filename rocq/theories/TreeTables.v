(** The class FactorTree (exact.py:168-451) when memory is short.  Products, sums over a
    variable and inverses whose table would have more than [B] entries raise the exception
    [x] (NumPy raises MemoryError).  The algorithms are those of JoinTree.v with the
    operations on factors as arguments (RoundedTree.v, RoundedSoft.v). *)
From Verif Require Import Base NDArray Factor Exact Order JoinTree RoundedTree RoundedSoft.

(** A table of at most [B] entries, or the exception [x].  Simplified: the limit is for each
    table, not for all together.  factor.py:161-236, 257-280, 513-541. *)
Definition capped (x : exc) (B : nat) (r : res factor) : res factor :=
  match r with
  | Ok f => if Nat.leb (length (data (pot f))) B then Ok f else Err x
  | Err e => Err e
  end.

(** factor.py:161-236 [__mul__] with limited memory. *)
Definition capped_mul {SO : SetOrder} (x : exc) (B : nat) (f g : factor) : res factor := capped x B (fmul f g).
(** factor.py:513-541 [marginalize], one variable, with limited memory. *)
Definition capped_marg (x : exc) (B : nat) (f : factor) (v : string) : res factor := capped x B (marginalize1 f v).
(** factor.py:257-280 [invert] with limited memory. *)
Definition capped_invert (x : exc) (B : nat) (f : factor) : res factor := capped x B (finvert f).

Section Capped.
Context {SO : SetOrder}.
Variables (x : exc) (B : nat).
(** exact.py:175-265 with limited memory. *)
Definition capped_jointree : bn -> option (list string) -> res jtree := create_jointree_by (capped_mul x B).
(** exact.py:268-290 with limited memory. *)
Definition capped_reset : bn -> jtree -> jtree * res unit := reset_factors_by (capped_mul x B).
(** exact.py:382-394 with limited memory. *)
Definition capped_messages : jtree -> jtree * res unit :=
  calculate_messages_by (capped_mul x B) (capped_marg x B) (capped_invert x B).
(** exact.py:339-376 with limited memory; [normalize] (factor.py:584-591) keeps the size. *)
Definition capped_tree : jtree -> list string -> jtree * res factor :=
  tmarginals_by (capped_mul x B) (capped_marg x B) (capped_invert x B) normalize.
(** exact.py:293-337 with limited memory, softPosteriors False or True. *)
Definition capped_evidence (b : bn) (ev : evidence) (soft : bool) (t : jtree) : jtree * res unit :=
  if soft
  then set_posteriors_by (capped_mul x B) (capped_marg x B) (capped_invert x B) normalize (soft_ratio_by Qcdiv Qcmult) b ev t
  else set_evidence_by (capped_mul x B) (capped_marg x B) (capped_invert x B) b ev t.
End Capped.
