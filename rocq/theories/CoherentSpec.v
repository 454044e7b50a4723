(** Answers to several queries about the same network. *)
From Verif Require Import Base NDArray Factor Exact Spec Order OrderSpec FactorSpec JoinTree TreeSpec.

(** [ev'] is [ev] and the observation that [v] is [x]. *)
Definition observes (v x : string) (ev ev' : evidence) : Prop :=
  dget v ev = None /\ dget v ev' = Some (Hard x) /\ forall u, u <> v -> dget u ev' = dget u ev.

(** [f] was returned for the query [Q], by either kind of variable elimination with any
    elimination order, or by a join tree in one piece. *)
Inductive answer (b : bn) (ev : evidence) (Q : list string) (f : factor) : Prop :=
  | by_naive (SO : SetOrder) : naive_marginals b Q ev = Ok f -> answer b ev Q f
  | by_bucket (SO : SetOrder) o : (o = None \/ o = Some [] -> wf_graph b) -> (forall l, o = Some l -> l <> [] -> Permutation (bnames b) l) ->
      bucket_query b Q ev o = Ok f -> answer b ev Q f
  | by_tree (SO : SetOrder) o order t t' : suits b o -> order_or_default b order = Ok o -> create_jointree b order = Ok t -> answers t Q ->
      set_evidence b ev false t = (t', Ok tt) -> snd (tmarginals t' Q) = Ok f -> answer b ev Q f.

(** Queries and evidence as the documentation wants them. *)
Definition asked (b : bn) (ev : evidence) (Q : list string) : Prop :=
  ev_ok b ev /\ incl (dkeys ev) (bnames b) /\ NoDup Q /\ incl Q (bnames b).
