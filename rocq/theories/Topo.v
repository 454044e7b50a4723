(** Model of [nx.topological_sort] (networkx 2.0-2.3, networkx/algorithms/dag.py), as
    called by networks.py:164.  It is a generator: what it yields and how it ends
    are modelled separately. *)
From Verif Require Import Base NDArray Factor Exact Sampling.

(** [G.in_degree()] of one node: the number of edges to it.  Read at networks.py:164. *)
Definition indegree (es : list (string * string)) (v : string) : nat :=
  length (filter (fun e => String.eqb v (snd e)) es).

(** [G.edges(node)]: the ends of the edges from a node.  Read at networks.py:164. *)
Definition outs (es : list (string * string)) (v : string) : list string :=
  map snd (filter (fun e => String.eqb v (fst e)) es).

(** The inner loop, one child: its entry in [indegree_map] falls by one; at zero it
    moves to the end of [zero_indegree], which is kept here with its end first.
    A child without entry is a RuntimeError.  Called at networks.py:164. *)
Definition relax (st : dict nat * list string) (c : string) : res (dict nat * list string) :=
  match dget c (fst st) with
  | None => Err RuntimeError
  | Some d => let m := dset c (d - 1) (fst st) in
              Ok (if Nat.eqb (d - 1) 0 then (ddel c m, c :: snd st) else (m, snd st))
  end.

(** The outer loop: the yielded nodes, and the exception at the end if there is one.
    Every round takes a node from [zero_indegree], so as many rounds as there are
    nodes are enough ([fuel]; TopoProof.v).  Called at networks.py:164. *)
Fixpoint topo_loop (es : list (string * string)) (fuel : nat) (m : dict nat) (zero : list string) : list string * option exc :=
  match zero with
  | [] => ([], match m with [] => None | _ => Some NetworkXUnfeasible end)
  | v :: zero' =>
      match fuel with
      | O => ([], Some RecursionError)
      | S fuel' =>
          match foldM relax (outs es v) (m, zero') with
          | Err e => ([], Some e)
          | Ok (m', zero'') => let r := topo_loop es fuel' m' zero'' in (v :: fst r, snd r)
          end
      end
  end.

(** The whole generator; [pop()] takes the last node without incoming edges first.
    Called at networks.py:164. *)
Definition topological_sort (ns : list string) (es : list (string * string)) : list string * option exc :=
  topo_loop es (length ns)
    (map (fun v => (v, indegree es v)) (filter (fun v => negb (Nat.eqb (indegree es v) 0)) ns))
    (rev (filter (fun v => Nat.eqb (indegree es v) 0) ns)).

(** networks.py:160-170 [get_sample] with networkx's own order: the loop runs over
    what the generator yields, then its exception, if any, is raised. *)
Definition get_sample_nx (g : rng) (k : nat) (b : bn) (ev : state) : res (state * nat) :=
  let order := topological_sort (border b) (bedges b) in
  let* r := get_sample g k b (fst order) ev in
  match snd order with None => Ok r | Some e => Err e end.

(** mcmc.py:56-84 [MCMC.marginals] with networkx's own order.  The initial sample
    is drawn first (mcmc.py:78), so its exception comes before all others. *)
Definition mcmc_marginals_nx (t : transition) (burnIn : nat) (full : bool) (numSamples : nat) (g : rng) (b : bn)
    (variables : list string) (ev : state) : res factor :=
  let order := topological_sort (border b) (bedges b) in
  match snd order with
  | None => mcmc_marginals t burnIn full numSamples g b (fst order) variables ev
  | Some e => let* _ := get_sample g 0 b (fst order) ev in Err e
  end.
