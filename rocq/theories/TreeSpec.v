(** When a network's elimination order yields a junction tree: conditions on the
    network and the order only. *)
From Coq Require Import Relations.
From Verif Require Import Base NDArray Factor Exact Spec OrderSpec Order JoinTree.

(** The arcs of the graph are the parent relations of the nodes. *)
Definition edges_match (b : bn) : Prop := forall u v,
  In (u, v) (bedges b) <-> exists n, In n (bnodes b) /\ dn_name n = v /\ In u (map fst (dn_parents n)).

(** Eliminating in this order never connects two unconnected nodes. *)
Definition perfect_order (b : bn) (o : list string) : Prop := forall pre v post, o = pre ++ v :: post ->
  forall x y, In x post -> In y post -> interacts b v x -> interacts b v y -> x <> y -> interacts b x y.

(** One component. *)
Definition one_component (b : bn) : Prop := forall u v, In u (bnames b) -> In v (bnames b) ->
  clos_refl_trans string (interacts b) u v.

(** Joining different lists of names gives different strings. *)
Definition decodable (names : list string) : Prop := forall l m, incl l names -> incl m names -> NoDup l -> NoDup m ->
  String.concat "" l = String.concat "" m -> l = m.

(** Every table's variables form a clique of the interaction graph; [b] is a
    tree when every node has at most one parent and arcs lead upwards in some rank. *)
Definition single_parent (b : bn) : Prop := forall n, In n (bnodes b) -> length (dn_parents n) <= 1.
Definition ranked (b : bn) (rank : string -> nat) : Prop := forall u v, In (u, v) (bedges b) -> rank u < rank v.

(** No cycles in an undirected graph: no walk through three or more different
    nodes leads back to its start.  A polytree has no cycles in its skeleton. *)
Fixpoint walk (R : string -> string -> Prop) (x : string) (l : list string) : Prop :=
  match l with [] => True | y :: l' => R x y /\ walk R y l' end.
Definition no_cycles (R : string -> string -> Prop) : Prop := forall x l,
  NoDup (x :: l) -> 2 <= length l -> walk R x l -> ~ R (last l x) x.
Definition polytree (b : bn) : Prop := no_cycles (linked0 b).

(** Graphs given by nodes and a symmetric relation. *)
Definition joined (nodes : list string) (adj : string -> string -> Prop) : Prop :=
  forall k k', In k nodes -> In k' nodes -> clos_refl_trans string adj k k'.

(** The graph stored in a FactorTree. *)
Definition tree_keys (t : jtree) : list string := dkeys (tnodes t).
Definition tree_adj (t : jtree) (k k' : string) : Prop := In k' (neighbours (tadj t) k).
Definition tree_vars (t : jtree) (k : string) : list string :=
  match dget k (tnodes t) with Some c => cvars c | None => [] end.

(** The tree made from the clusters of this order is in one piece.  (Perfect orders of
    networks with one component do it, and many others.) *)
Definition one_piece (b : bn) (o : list string) : Prop := forall cs L,
  cluster_seq o (moral_graph b) = Ok cs -> prune cs = Ok L -> joined (tree_keys (build_tree L)) (tree_adj (build_tree L)).

(** All of it. *)
Record suits (b : bn) (o : list string) : Prop := {
  su_bn : wf_bn b;
  su_graph : wf_graph b;
  su_edges : edges_match b;
  su_some : bnodes b <> [];
  su_perm : Permutation (bnames b) o;
  su_tree : one_piece b o;
  su_names : decodable (bnames b)
}.

(** Marginal probabilities before any evidence, in the order of the values. *)
Definition prior (b : bn) (v : string) : list Qc := map (fun x => posterior b [] [(v, x)]) (values_of b v).

(** [softPosteriors]: evidence [q] for v stands for the likelihoods that move v's
    prior to q, up to a common factor. *)
Definition moves (p l q : list Qc) : Prop :=
  length l = length p /\ length q = length p /\ Forall (fun x => 0 <= x)%Qc l /\
  exists c, c <> 0%Qc /\ forall i, i < length p -> (nth i p 0 * nth i l 0 = c * nth i q 0)%Qc.

(** No cycles: every set of nodes has one with at most one neighbour in the set. *)
Definition acyclic (nodes : list string) (adj : string -> string -> Prop) : Prop :=
  forall S, S <> [] -> incl S nodes ->
  exists k, In k S /\ forall q q', In q S -> In q' S -> adj k q -> adj k q' -> q = q'.

(** Junction trees over node labels [vars]. *)
Record junction_tree (b : bn) (nodes : list string) (adj : string -> string -> Prop) (vars : string -> list string) : Prop := {
  jt_nodup : NoDup nodes;
  jt_sym : forall k k', adj k k' -> adj k' k;
  jt_irr : forall k, ~ adj k k;
  jt_in : forall k k', adj k k' -> In k nodes /\ In k' nodes;
  jt_joined : joined nodes adj;
  jt_acyclic : acyclic nodes adj;
  jt_families : forall n, In n (bnodes b) -> exists k, In k nodes /\ incl (dn_name n :: map fst (dn_parents n)) (vars k);
  jt_known : forall k v, In k nodes -> In v (vars k) -> In v (bnames b);
  jt_running : forall v, In v (bnames b) ->
     forall k k', In k nodes -> In k' nodes -> In v (vars k) -> In v (vars k') ->
       clos_refl_trans string (fun x y => adj x y /\ In v (vars x) /\ In v (vars y)) k k'
}.

(** Queries that some clique answers. *)
Definition answers (t : jtree) (Q : list string) : Prop := exists k, In k (tree_keys t) /\ incl Q (tree_vars t k).

(** No name is empty or a prefix of another one. *)
Definition prefix_free (names : list string) : Prop :=
  ~ In "" names /\ forall a b s, In a names -> In b names -> b = (a ++ s)%string -> s = "".

(** Desired posteriors must be possible and not all zero. *)
Definition supported (b : bn) (ev : evidence) : Prop := forall v q, In (v, Soft q) ev ->
  (exists i, i < length q /\ (0 < nth i q 0)%Qc) /\
  forall i, i < length q -> nth i (prior b v) 0%Qc = 0%Qc -> nth i q 0%Qc = 0%Qc.

(** [meant b ev ev']: ev read as desired posteriors stands for the likelihoods ev'. *)
Inductive meant (b : bn) : evidence -> evidence -> Prop :=
| meant_nil : meant b [] []
| meant_hard v x ev ev' : meant b ev ev' -> meant b ((v, Hard x) :: ev) ((v, Hard x) :: ev')
| meant_soft v q l ev ev' : moves (prior b v) l q -> meant b ev ev' -> meant b ((v, Soft q) :: ev) ((v, Soft l) :: ev').

(** Items that set_evidence has to reject. *)
Definition rejected (b : bn) (v : string) (e : evid) : Prop :=
  ~ In v (bnames b) \/
  match e with Hard x => ~ In x (values_of b v) | Soft q => length q <> length (values_of b v) end.

(** Networks whose nodes have the same parents; tables and values may differ. *)
Definition same_arcs (b b' : bn) : Prop :=
  map (fun n => (dn_name n, map fst (dn_parents n))) (bnodes b) = map (fun n => (dn_name n, map fst (dn_parents n))) (bnodes b').

(** Histories of a FactorTree for a network created with arcs as in [b0].  The
    second component says what the tree is expected to know: the network at the
    time and the evidence, read as posteriors if the flag is set; [None] after
    calls that need not succeed. *)
Inductive reaches {SO : SetOrder} (b0 : bn) : jtree -> option (bn * evidence * bool) -> Prop :=
| R_create order o t : order_or_default b0 order = Ok o -> suits b0 o -> nonneg_bn b0 ->
    create_jointree b0 order = Ok t -> reaches b0 t (Some (b0, [], false))
| R_evidence b ev t k : reaches b0 t k -> same_arcs b0 b -> wf_bn b -> nonneg_bn b ->
    ev_ok b ev -> incl (dkeys ev) (bnames b) ->
    reaches b0 (fst (set_evidence b ev false t)) (Some (b, ev, false))
| R_posterior b ev t k : reaches b0 t k -> same_arcs b0 b -> wf_bn b -> nonneg_bn b ->
    ev_ok b ev -> incl (dkeys ev) (bnames b) -> supported b ev ->
    reaches b0 (fst (set_evidence b ev true t)) (Some (b, ev, true))
| R_any b ev soft t k : reaches b0 t k -> reaches b0 (fst (set_evidence b ev soft t)) None
| R_reset b t k : reaches b0 t k -> same_arcs b0 b -> wf_bn b -> nonneg_bn b ->
    reaches b0 (fst (reset_factors b t)) (Some (b, [], false))
| R_messages t k : reaches b0 t k -> reaches b0 (fst (calculate_messages t)) k
| R_query Q t k : reaches b0 t k -> reaches b0 (fst (tmarginals t Q)) k.

(** Any use of a FactorTree, whatever the elimination order and the outcome of
    the calls; evidence weights are not negative. *)
Inductive session {SO : SetOrder} (b0 : bn) : jtree -> Prop :=
| S_create order t : create_jointree b0 order = Ok t -> session b0 t
| S_evidence b ev soft t : session b0 t -> same_arcs b0 b -> wf_bn b -> nonneg_bn b ->
    (forall v q, In (v, Soft q) ev -> Forall (fun x => 0 <= x)%Qc q) -> session b0 (fst (set_evidence b ev soft t))
| S_reset b t : session b0 t -> same_arcs b0 b -> wf_bn b -> nonneg_bn b -> session b0 (fst (reset_factors b t))
| S_messages t : session b0 t -> session b0 (fst (calculate_messages t))
| S_query Q t : session b0 t -> session b0 (fst (tmarginals t Q)).

(** A separator table over no variables with value zero. *)
Definition zero_separator (t : jtree) : Prop := exists u v s, eget u v (tedges t) = Some s /\ vorder (sfac s) = [] /\ data (pot (sfac s)) = [0%Qc].
