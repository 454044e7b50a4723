(** Error counts of desired posteriors in rounded arithmetic, and histories that contain them. *)
From Verif Require Import Base NDArray Factor Exact Order Spec JoinTree TreeSpec Rounded RoundedSpec RoundedTree RoundedTreeSpec RoundedSoft.

(** Rounding errors in one item of evidence for a tree of [m] nodes, and in multiplying it in:
    the prior is used twice. *)
Definition item_errors (b : bn) (m : nat) (p : string * evid) : nat :=
  match snd p with Hard _ => 1 | Soft _ => 2 * tree_errors b m [fst p] [] + 4 end.
Definition desired_errors (b : bn) (m : nat) (Q : list string) (ev : evidence) : nat :=
  passing_errors b m Q (length (bnodes b) + sumn (map (item_errors b m) ev)).

(** Any use of a FactorTree, softPosteriors=True included. *)
Inductive used_any {RD : Rounding} {AD : Adding} {SO : SetOrder} (b0 : bn) : jtree -> Prop :=
| A_create order o t : order_or_default b0 order = Ok o -> suits b0 o -> nonneg_bn b0 -> rounded_jointree b0 order = Ok t -> used_any b0 t
| A_evidence b ev t : used_any b0 t -> used_any b0 (fst (rounded_evidence b ev t))
| A_posteriors b ev t : used_any b0 t -> used_any b0 (fst (rounded_posteriors b ev t))
| A_reset b t : used_any b0 t -> used_any b0 (fst (rounded_reset b t))
| A_messages t : used_any b0 t -> used_any b0 (fst (rounded_messages t))
| A_query Q t : used_any b0 t -> used_any b0 (fst (rounded_tree t Q)).
