(** Model of primo2/inference/order.py and of the undirected networkx graphs it
    and create_jointree use. *)
From Verif Require Import Base NDArray Factor Exact.

(** A networkx Graph whose nodes are identified by name (RandomNode hashes and
    compares by name, nodes.py:43-64): node -> neighbours, both in insertion
    order.  Edge and node attributes are not used by the modelled code. *)
Definition ugraph := dict (list string).

(** [graph[v]] (order.py:59-61), [graph.neighbors(v)] (exact.py:214). *)
Definition neighbours (g : ugraph) (v : string) : list string :=
  match dget v g with Some l => l | None => [] end.

(** networkx [Graph.add_edge]: adds missing nodes, then both directions.
    Adding a node (exact.py:242, 246). *)
Definition ensure (u : string) (g : ugraph) : ugraph := if dmem u g then g else dset u [] g.
(** One direction of an edge (order.py:63, exact.py:209). *)
Definition add_nbr (u v : string) (g : ugraph) : ugraph :=
  if mem v (neighbours g u) then g else dset u (neighbours g u ++ [v]) g.
(** [add_edge(u, v)] (order.py:63, exact.py:209, 253). *)
Definition add_uedge (u v : string) (g : ugraph) : ugraph :=
  add_nbr v u (add_nbr u v (ensure v (ensure u g))).

(** networkx [Graph.remove_node].  order.py:64, exact.py:216. *)
Definition remove_unode (v : string) (g : ugraph) : ugraph :=
  map (fun p => (fst p, remove1 v (snd p))) (ddel v g).

(** networkx [DiGraph.to_undirected]: nodes in graph order, then for each node
    its outgoing edges (order.py:53, exact.py:201). *)
Definition to_undirected (b : bn) : ugraph :=
  fold_left (fun g e => add_uedge (fst e) (snd e) g)
    (flat_map (fun u => filter (fun e => String.eqb (fst e) u) (bedges b)) (border b))
    (map (fun v => (v, [])) (border b)).

(** networkx degree: a self loop counts twice.  order.py:56. *)
Definition degree (g : ugraph) (v : string) : nat :=
  length (neighbours g v) + (if mem v (neighbours g v) then 1 else 0).

(** order.py:56-57: [sorted(degrees.items(), key=itemgetter(1))[0][0]] is the
    first node of minimal degree (sorted is stable). *)
Fixpoint min_from (g : ugraph) (best : string) (l : list string) : string :=
  match l with
  | [] => best
  | v :: l' => min_from g (if Nat.ltb (degree g v) (degree g best) then v else best) l'
  end.
(** order.py:56-57; IndexError for the empty graph. *)
Definition min_node (g : ugraph) : res string :=
  match dkeys g with [] => Err IndexError | v :: l => Ok (min_from g v l) end.

(** order.py:59-63: connect the neighbours of the eliminated node.  The
    neighbour dict iterated over is not changed by the loop. *)
Definition connect1 (p : string) (nbrs : list string) (g : ugraph) : ugraph :=
  fold_left (fun g p2 => if negb (String.eqb p p2) && negb (mem p2 (neighbours g p))
                         then add_uedge p p2 g else g) nbrs g.
(** order.py:59-63, all neighbours in turn. *)
Definition connect (nbrs : list string) (g : ugraph) : ugraph :=
  fold_left (fun g p => connect1 p nbrs g) nbrs g.

(** order.py:55-64. *)
Fixpoint min_degree_loop (k : nat) (g : ugraph) : res (list string) :=
  match k with
  | O => Ok []
  | S k' =>
      let* v := min_node g in
      let* r := min_degree_loop k' (remove_unode v (connect (neighbours g v) g)) in
      Ok (v :: r)
  end.

(** order.py:33-84 [get_min_degree_order]; the TypeError for other arguments
    than networks is not modelled. *)
Definition get_min_degree_order (b : bn) : res (list string) :=
  min_degree_loop (length (bnodes b)) (to_undirected b).

(** order.py:86-108 [get_random_order]: the keys of node_lookup. *)
Definition get_random_order (b : bn) : list string := bnames b.

(** exact.py:118-119 and 198-199: [if not order: order = Orderer.get_min_degree_order(bn)];
    an empty list counts as not given. *)
Definition order_or_default (b : bn) (order : option (list string)) : res (list string) :=
  match order with
  | Some ((_ :: _) as o) => Ok o
  | _ => get_min_degree_order b
  end.

(** exact.py:86-166 [bucket_marginals] with its optional [order] argument. *)
Definition bucket_query {SO : SetOrder} (b : bn) (variables : list string) (ev : evidence)
    (order : option (list string)) : res factor :=
  let* o := order_or_default b order in snd (bucket_marginals b variables ev o).
