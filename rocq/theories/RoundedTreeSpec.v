(** Error counts of a FactorTree in rounded arithmetic, and its histories. *)
From Verif Require Import Base NDArray Factor Exact Order Spec JoinTree TreeSpec Rounded RoundedSpec RoundedTree.

(** Rounding errors that can pile up in an answer from a tree of [m] nodes into which
    [n] tables were multiplied. *)
Definition passing_errors (b : bn) (m : nat) (Q : list string) (n : nat) : nat :=
  let w := sumn (sizes b (bnames b)) in
  let up := n + m * (w + 3) in
  2 * (up + m * (2 * up + w + 3) + w) + prodn (sizes b Q) + 1.
Definition tree_errors (b : bn) (m : nat) (Q : list string) (ev : evidence) : nat := passing_errors b m Q (length (bnodes b) + length ev).

(** Any use of a FactorTree created for a network with the arcs of [b0], whatever the
    outcome of the calls. *)
Inductive used {RD : Rounding} {AD : Adding} {SO : SetOrder} (b0 : bn) : jtree -> Prop :=
| U_create order o t : order_or_default b0 order = Ok o -> suits b0 o -> nonneg_bn b0 -> rounded_jointree b0 order = Ok t -> used b0 t
| U_evidence b ev t : used b0 t -> used b0 (fst (rounded_evidence b ev t))
| U_reset b t : used b0 t -> used b0 (fst (rounded_reset b t))
| U_messages t : used b0 t -> used b0 (fst (rounded_messages t))
| U_query Q t : used b0 t -> used b0 (fst (rounded_tree t Q)).
