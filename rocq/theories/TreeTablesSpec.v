(** What the tables of a join tree may be, in terms of the network and the order. *)
From Verif Require Import Base NDArray Factor Exact Spec SepSpec Order JoinTree TreeSpec TablesSpec.

(** Any use of a FactorTree created for [b0] with the elimination order [o], whatever the
    outcome of the calls.  [b] is the network whose tables it holds. *)
Inductive serves {SO : SetOrder} (b0 : bn) (o : list string) : bn -> jtree -> Prop :=
| SV_create order t : order_or_default b0 order = Ok o -> create_jointree b0 order = Ok t -> serves b0 o b0 t
| SV_evidence b b' ev soft t : serves b0 o b t -> same_arcs b0 b' -> wf_bn b' -> serves b0 o b' (fst (set_evidence b' ev soft t))
| SV_reset b b' t : serves b0 o b t -> same_arcs b0 b' -> wf_bn b' -> serves b0 o b' (fst (reset_factors b' t))
| SV_messages b t : serves b0 o b t -> serves b0 o b (fst (calculate_messages t))
| SV_query b Q t : serves b0 o b t -> serves b0 o b (fst (tmarginals t Q)).

(** [K]: a variable of the order and variables that share a family with it and do not come
    before it in the order. *)
Definition round (b : bn) (o K : list string) : Prop :=
  exists pre v post, o = pre ++ v :: post /\ forall u, In u K -> u = v \/ ~ In u pre /\ related b v u.

(** All tables over such variables have at most [B] entries. *)
Definition roomy (b : bn) (o : list string) (B : nat) : Prop :=
  forall K, NoDup K -> round b o K -> entries b K <= B.
