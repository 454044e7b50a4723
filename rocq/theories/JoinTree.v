(** Model of the class FactorTree (primo2/inference/exact.py:168-451).
    A FactorTree refers to its network ([self.bn]); the functions below take the
    network's current state as an argument. *)
From Verif Require Import Base NDArray Factor Exact Order.

(** Node attributes of the tree (exact.py:242-248) and edge attributes
    (253-255).  The [variables] and [sep] sets are lists without duplicates. *)
Record clique := mkC { cvars : list string; cfac : factor }.
(** Edge attributes (exact.py:253-255). *)
Record sepd := mkS { svars : list string; sfac : factor }.

(** The networkx Graph [tree]: nodes with attributes and neighbours in
    insertion order; undirected edges with attributes; the graph attribute
    [messagesValid] (232). *)
Record jtree := mkT {
  tnodes : dict clique;
  tadj : ugraph;
  tedges : list ((string * string) * sepd);
  tvalid : bool
}.

(** Edges are found under both orientations ([tree[u][v]]).  exact.py:419-421, 445-447. *)
Definition same_edge (u v : string) (e : string * string) : bool :=
  (String.eqb u (fst e) && String.eqb v (snd e)) || (String.eqb u (snd e) && String.eqb v (fst e)).

(** [tree[u][v]] (exact.py:419-421, 445-447). *)
Fixpoint eget (u v : string) (l : list ((string * string) * sepd)) : option sepd :=
  match l with
  | [] => None
  | (e, d) :: l' => if same_edge u v e then Some d else eget u v l'
  end.

(** Assigning the attributes of the edge (exact.py:253, 421, 447). *)
Fixpoint eset (u v : string) (d : sepd) (l : list ((string * string) * sepd))
  : list ((string * string) * sepd) :=
  match l with
  | [] => [((u, v), d)]
  | (e, d') :: l' => if same_edge u v e then (e, d) :: l' else (e, d') :: eset u v d l'
  end.

(** networkx [add_node] with attributes (exact.py:242, 246): an existing node keeps its
    place and edges and gets the new attributes. *)
Definition add_clique (k : string) (c : clique) (t : jtree) : jtree :=
  mkT (dset k c (tnodes t)) (ensure k (tadj t)) (tedges t) (tvalid t).

(** networkx [add_edge] with attributes (exact.py:253) between existing nodes. *)
Definition add_sep (u v : string) (d : sepd) (t : jtree) : jtree :=
  mkT (tnodes t) (add_uedge u v (tadj t)) (eset u v d (tedges t)) (tvalid t).

(** [tree.node[k]["factor"] = f] (exact.py:420, 446). *)
Definition set_cfac (k : string) (f : factor) (t : jtree) : jtree :=
  match dget k (tnodes t) with
  | Some c => mkT (dset k (mkC (cvars c) f) (tnodes t)) (tadj t) (tedges t) (tvalid t)
  | None => t
  end.

(** [tree[u][v]["factor"] = f] (exact.py:421, 447). *)
Definition set_sfac (u v : string) (f : factor) (t : jtree) : jtree :=
  match eget u v (tedges t) with
  | Some d => mkT (tnodes t) (tadj t) (eset u v (mkS (svars d) f) (tedges t)) (tvalid t)
  | None => t
  end.

(** [tree.graph["messagesValid"] = x] (exact.py:290, 392). *)
Definition set_valid (x : bool) (t : jtree) : jtree := mkT (tnodes t) (tadj t) (tedges t) x.

(** ** create_jointree, exact.py:175-265 *)

(** exact.py:201-209: the moral graph.  [n.parents] is iterated in the order of the dict. *)
Definition moral_pairs (ps : list string) : list (string * string) :=
  flat_map (fun p => map (fun p2 => (p, p2)) (filter (fun p2 => negb (String.eqb p p2)) ps)) ps.

(** exact.py:201-209, all nodes in turn.  Line 204 iterates over the graph, the model over
    [node_lookup]: the two list the same nodes in the same order in every network that
    the methods of the class can make (C56_one_order, PropGraph.v). *)
Definition moral_graph (b : bn) : ugraph :=
  fold_left (fun g e => add_uedge (fst e) (snd e) g)
            (flat_map (fun n => moral_pairs (dn_pdict n)) (bnodes b)) (to_undirected b).

(** exact.py:211-216: no fill-in edges are added when a node is removed. *)
Fixpoint cluster_seq (order : list string) (g : ugraph) : res (list (list string)) :=
  match order with
  | [] => Ok []
  | v :: o => if dmem v g then
                let* r := cluster_seq o (remove_unode v g) in Ok ((v :: neighbours g v) :: r)
              else Err NetworkXError
  end.

(** List operations on clusters (lists of names compare by content).  exact.py:226-229. *)
Fixpoint lseqb (a b : list string) : bool :=
  match a, b with
  | [], [] => true
  | x :: a', y :: b' => String.eqb x y && lseqb a' b'
  | _, _ => false
  end.

(** [clusterSeq.index(c)] (exact.py:226). *)
Fixpoint cindex (c : list string) (l : list (list string)) : option nat :=
  match l with
  | [] => None
  | d :: l' => if lseqb c d then Some 0
               else match cindex c l' with Some i => Some (S i) | None => None end
  end.

(** [clusterSeq.remove(c)] (exact.py:227, 229). *)
Fixpoint cremove (c : list string) (l : list (list string)) : list (list string) :=
  match l with
  | [] => []
  | d :: l' => if lseqb c d then l' else d :: cremove c l'
  end.

(** exact.py:217-223: for i = len-1 .. 1 the nearest earlier cluster containing cluster i. *)
Fixpoint last_superset (c : list string) (before : list (list string)) : option (list string) :=
  match before with
  | [] => None
  | d :: l => match last_superset c l with
              | Some e => Some e
              | None => if subset c d then Some d else None
              end
  end.

(** [swaps_up pre l]: the pairs for the clusters [l] that follow [pre], in
    ascending order of i; the code collects them in descending order.  exact.py:219-223. *)
Fixpoint swaps_up (pre l : list (list string)) : list (list string * list string) :=
  match l with
  | [] => []
  | c :: l' => (match last_superset c pre with Some d => [(c, d)] | None => [] end)
               ++ swaps_up (pre ++ [c]) l'
  end.
(** exact.py:217-223: the list [swap]. *)
Definition swaps (l : list (list string)) : list (list string * list string) := rev (swaps_up [] l).

(** exact.py:224-229. *)
Definition swap1 (l : list (list string)) (p : list string * list string) : res (list (list string)) :=
  match cindex (fst p) l with
  | None => Err ValueError
  | Some i => let l1 := list_insert i (snd p) (cremove (fst p) l) in
              Ok (cremove (snd p) l1)      (* present: it was just inserted *)
  end.

(** exact.py:217-229. *)
Definition prune (l : list (list string)) : res (list (list string)) := foldM swap1 (swaps l) l.

(** ["".join(cluster)].  exact.py:242, 246, 253. *)
Definition key_of (c : list string) : string := String.concat "" c.

(** exact.py:249-250: the variables shared with the later clusters. *)
Definition jprop (c : list string) (post : list (list string)) : list string :=
  filter (fun v => existsb (mem v) post) c.

(** exact.py:241-256: the clusters are added from the last to the first. *)
Fixpoint build_tree (l : list (list string)) : jtree :=
  match l with
  | [] => mkT [] [] [] false
  | c :: post =>
      let t := add_clique (key_of c) (mkC c (trivial 1%Qc)) (build_tree post) in
      let s := jprop c post in
      match s with
      | [] => t
      | _ :: _ => match find (fun d => subset s d) post with
                  | Some d => add_sep (key_of c) (key_of d) (mkS s (trivial 1%Qc)) t
                  | None => t
                  end
      end
  end.

(** exact.py:259-264 and 285-289: multiply each factor into the first node that covers it. *)
Fixpoint assign_factor {SO : SetOrder} (f : factor) (l : dict clique) : res (dict clique) :=
  match l with
  | [] => Ok []
  | (k, c) :: l' => if subset (dkeys (fvals f)) (cvars c)
                    then let* g := fmul (cfac c) f in Ok ((k, mkC (cvars c) g) :: l')
                    else let* r := assign_factor f l' in Ok ((k, c) :: r)
  end.

(** exact.py:259-264 and 285-289, all factors in turn. *)
Definition assign_factors {SO : SetOrder} (fs : list factor) (t : jtree) : res jtree :=
  let* ns := foldM (fun l f => assign_factor f l) fs (tnodes t) in
  Ok (mkT ns (tadj t) (tedges t) (tvalid t)).

(** exact.py:175-265 [create_jointree].  Nodes (line 204) in the order of [node_lookup], as in
    [moral_graph]. *)
Definition create_jointree {SO : SetOrder} (b : bn) (order : option (list string)) : res jtree :=
  let* o := order_or_default b order in                     (* 198-199 *)
  let* cs := cluster_seq o (moral_graph b) in
  let* cs' := prune cs in
  assign_factors (map from_node (bnodes b)) (build_tree cs').

(** ** Operations on the tree.  Each returns the tree as it is left behind,
    also when it raises. *)

(** exact.py:268-290 [reset_factors].  An error in a product would leave the tree half
    reset; for networks with fitting tables there is none. *)
Definition clear_factors (t : jtree) : jtree :=
  mkT (map (fun p => (fst p, mkC (cvars (snd p)) (trivial 1%Qc))) (tnodes t)) (tadj t)
      (map (fun p => (fst p, mkS (svars (snd p)) (trivial 1%Qc))) (tedges t)) (tvalid t).

(** exact.py:268-290 [reset_factors].  Nodes (line 277) in the order of [node_lookup], as in
    [moral_graph]. *)
Definition reset_factors {SO : SetOrder} (b : bn) (t : jtree) : jtree * res unit :=
  match assign_factors (map from_node (bnodes b)) (clear_factors t) with
  | Ok t' => (set_valid false t', Ok tt)
  | Err e => (clear_factors t, Err e)
  end.

(** exact.py:418-421 and 445-447: one message from [cur] to [to]. *)
Definition send {SO : SetOrder} (cur to : string) (t : jtree) : jtree * res unit :=
  let m :=
    let* c := dget_err KeyError cur (tnodes t) in
    let* s := match eget cur to (tedges t) with Some s => Ok s | None => Err KeyError end in
    let* new := marginalize (cfac c) (sdiff (cvars c) (svars s)) in
    let* d := dget_err KeyError to (tnodes t) in
    let* q := fdiv new (sfac s) in
    let* f := fmul (cfac d) q in
    Ok (new, f) in
  match m with
  | Ok (new, f) => (set_sfac cur to new (set_cfac to f t), Ok tt)
  | Err e => (t, Err e)
  end.

(** Iteration with early exit.  The [for] loops at exact.py:329, 413, 442. *)
Fixpoint each {A} (f : A -> jtree -> jtree * res unit) (l : list A) (t : jtree) : jtree * res unit :=
  match l with
  | [] => (t, Ok tt)
  | x :: l' => match f x t with
               | (t', Ok _) => each f l' t'
               | (t', Err e) => (t', Err e)
               end
  end.

(** [neighbor != parent] (exact.py:414, 443); [parent] is None at the root (390-391). *)
Definition is_parent (parent : option string) (k : string) : bool :=
  match parent with Some p => String.eqb p k | None => false end.

(** exact.py:396-423 [pull_messages]; [fuel] bounds the recursion depth (Python raises
    RecursionError).  The test [if parent:] is false for None and for "". *)
Fixpoint pull {SO : SetOrder} (fuel : nat) (cur : string) (parent : option string) (t : jtree)
  : jtree * res unit :=
  match fuel with
  | O => (t, Err RecursionError)
  | S n =>
      match each (fun k => pull n k (Some cur))
                 (filter (fun k => negb (is_parent parent k)) (neighbours (tadj t) cur)) t with
      | (t', Err e) => (t', Err e)
      | (t', Ok _) => match parent with
                      | None | Some "" => (t', Ok tt)
                      | Some p => send cur p t'
                      end
      end
  end.

(** exact.py:425-449 [push_messages]. *)
Fixpoint push {SO : SetOrder} (fuel : nat) (cur : string) (parent : option string) (t : jtree)
  : jtree * res unit :=
  match fuel with
  | O => (t, Err RecursionError)
  | S n =>
      each (fun k t => match send cur k t with
                       | (t', Ok _) => push n k (Some cur) t'
                       | (t', Err e) => (t', Err e)
                       end)
           (filter (fun k => negb (is_parent parent k)) (neighbours (tadj t) cur)) t
  end.

(** exact.py:382-394 [calculate_messages]: an IndexError (from the empty tree, or from
    anywhere below) is swallowed.  The recursion limit is one more than the
    number of nodes, which suffices for every tree; Python's fixed limit of
    about 1000 frames is the subject of RecLimit.v. *)
Definition calculate_messages {SO : SetOrder} (t : jtree) : jtree * res unit :=
  match dkeys (tnodes t) with
  | [] => (t, Ok tt)
  | root :: _ =>
      let fuel := S (length (tnodes t)) in
      let r := match pull fuel root None t with
               | (t1, Ok _) => match push fuel root None t1 with
                               | (t2, Ok _) => (set_valid true t2, Ok tt)
                               | (t2, Err e) => (t2, Err e)
                               end
               | (t1, Err e) => (t1, Err e)
               end in
      match r with
      | (t', Err IndexError) => (t', Ok tt)
      | x => x
      end
  end.

(** exact.py:339-376 [marginals]. *)
Definition tmarginals {SO : SetOrder} (t : jtree) (variables : list string) : jtree * res factor :=
  let (t', r) := if tvalid t then (t, Ok tt) else calculate_messages t in
  match r with
  | Err e => (t', Err e)
  | Ok _ =>
      (t', match find (fun p => subset variables (cvars (snd p))) (tnodes t') with
           | Some (_, c) => let* f := marginalize (cfac c) (sdiff (cvars c) variables) in
                            Ok (normalize f)
           | None => Err ValueError
           end)
  end.

(** exact.py:333-336: multiply an evidence factor into the first node with its variable. *)
Fixpoint assign_evidence {SO : SetOrder} (v : string) (f : factor) (l : dict clique) : res (dict clique) :=
  match l with
  | [] => Ok []
  | (k, c) :: l' => if mem v (cvars c)
                    then let* g := fmul (cfac c) f in Ok ((k, mkC (cvars c) g) :: l')
                    else let* r := assign_evidence v f l' in Ok ((k, c) :: r)
  end.

(** exact.py:328-336, one evidence variable; [old] are the temporary marginals. *)
Definition add_tree_evidence {SO : SetOrder} (b : bn) (old : dict (list Qc)) (p : string * evid)
    (t : jtree) : jtree * res unit :=
  let m := let* n := get_node b (fst p) in
           let* ef := as_evidence (fst p) (dn_values n) (snd p) (dget (fst p) old) in
           assign_evidence (fst p) ef (tnodes t) in
  match m with
  | Ok ns => (mkT ns (tadj t) (tedges t) (tvalid t), Ok tt)
  | Err e => (t, Err e)
  end.

(** exact.py:324-325: the marginals before the evidence ([.potentials] of a factor over
    one variable). *)
Fixpoint old_marginals {SO : SetOrder} (vs : list string) (t : jtree) : jtree * res (dict (list Qc)) :=
  match vs with
  | [] => (t, Ok [])
  | v :: vs' => match tmarginals t [v] with
                | (t1, Err e) => (t1, Err e)
                | (t1, Ok f) => match old_marginals vs' t1 with
                                | (t2, Ok d) => (t2, Ok ((v, data (pot f)) :: d))
                                | (t2, Err e) => (t2, Err e)
                                end
                end
  end.

(** exact.py:293-337 [set_evidence]. *)
Definition set_evidence {SO : SetOrder} (b : bn) (ev : evidence) (softPosteriors : bool) (t : jtree)
  : jtree * res unit :=
  match reset_factors b t with                              (* 317 *)
  | (t1, Err e) => (t1, Err e)
  | (t1, Ok _) =>
      let (t2, old) :=
        if softPosteriors then                              (* 320-326 *)
          match calculate_messages t1 with
          | (t', Err e) => (t', Err e)
          | (t', Ok _) => match old_marginals (dkeys ev) t' with
                          | (t'', Err e) => (t'', Err e)
                          | (t'', Ok d) => match reset_factors b t'' with
                                           | (t3, Ok _) => (t3, Ok d)
                                           | (t3, Err e) => (t3, Err e)
                                           end
                          end
          end
        else (t1, Ok []) in
      match old with
      | Err e => (t2, Err e)
      | Ok d => match each (add_tree_evidence b d) ev t2 with
                | (t3, Ok _) => calculate_messages t3       (* 337 *)
                | (t3, Err e) => (t3, Err e)
                end
      end
  end.

(** exact.py:379-380 [get_evidence_probability]. *)
Definition get_evidence_probability : res Qc := Err NotImplementedError.
