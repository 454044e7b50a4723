(** The range of numbers a join tree needs, and its histories. *)
From Verif Require Import Base NDArray Factor Exact Order Spec JoinTree TreeSpec Rounded RoundedSpec RoundedTree RoundedTreeSpec Ranged RangedSpec RangedTree.

(** Powers of two for the additions in a tree of [m] nodes. *)
Definition tree_spread (b : bn) (m : nat) (Q : list string) : nat :=
  (m + 3) * sumn (map pred (sizes b (bnames b))) + prodn (sizes b Q).
Definition tree_need {RD : Rounding} (P : Qc) (b : bn) (m : nat) (Q : list string) (ev : evidence) : Qc :=
  need P (length (bnodes b) + length ev) (tree_spread b m Q) (tree_errors b m Q ev).

(** Any use of a FactorTree created for a network with the arcs of [b0], whatever the
    outcome of the calls. *)
Inductive worked {RD : Rounding} {LM : Limits} {IV : Inverting} {AD : Adding} {SO : SetOrder} (b0 : bn) : jtree -> Prop :=
| K_create order o t : order_or_default b0 order = Ok o -> suits b0 o -> nonneg_bn b0 -> limited_jointree b0 order = Ok t -> worked b0 t
| K_evidence b ev t : worked b0 t -> worked b0 (fst (limited_evidence b ev t))
| K_reset b t : worked b0 t -> worked b0 (fst (limited_reset b t))
| K_messages t : worked b0 t -> worked b0 (fst (limited_messages t))
| K_query Q t : worked b0 t -> worked b0 (fst (limited_tree t Q)).
