(** Networks that a FactorTree can be created for, with room for its tables. *)
From Verif Require Import Base NDArray Factor Exact Spec SepSpec Order OrderSpec JoinTree TreeSpec TablesSpec TreeTablesSpec Node Network Dynamic.

(** A network as the API builds it, with unambiguous joined names; tables over a variable and
    its later relatives in the default order have at most [B] entries. *)
Record housed (b : bn) (B : nat) : Prop := {
  ho_wf : wf_bn b;
  ho_graph : wf_graph b;
  ho_edges : edges_match b;
  ho_names : decodable (bnames b);
  ho_room : forall o, order_or_default b None = Ok o -> roomy b o B
}.

(** The two networks of a dynamic Bayesian network. *)
Definition part (h : heap) (d : dbnet) (first : bool) : bn := view (mkW h (if first then db0 d else dtwo d)).
