(** Model of primo2/networks.py, class BayesianNetwork: node_lookup, the networkx
    DiGraph and the node objects. *)
From Verif Require Import Base NDArray Node Factor Exact.

(** networks.py:30-34.  networkx keeps nodes and adjacency in dictionaries keyed
    by the node objects, which hash and compare by name (nodes.py:43-64).
    [ggraph] lists those keys in insertion order, each with the object that
    serves as key; [gedges] lists the edges by name in insertion order, so that
    [succ[v]] is the filtered list.  The order of [pred] is taken from the same
    list.  Hashes are taken when a key is inserted: renaming a node object other
    than through the network (or through another network that shares the node)
    is not modelled.  The attributes [name] and [meta] hold strings or None
    (io.py:59-61). *)
Record net := mkNet {
  lookup : dict oid;
  ggraph : dict oid;
  gedges : list (string * string);
  bname : option string;
  bmeta : list (option string)
}.

(** networks.py:30-34 [__init__]. *)
Definition empty_net : net := mkNet [] [] [] (Some "") [].

(** The network together with all node objects.  No line of its own in /repo: Python's memory. *)
Record world := mkW { whp : heap; wnet : net }.
(** Changing a node object (e.g. networks.py:114). *)
Definition with_heap (w : world) (h : heap) : world := mkW h (wnet w).
(** Changing an attribute of the network (e.g. networks.py:41-42). *)
Definition with_net (w : world) (g : net) : world := mkW (whp w) g.

(** A stateful call: the state it leaves and its result.
    E.g. networks.py:46-52, which may raise half-way. *)
Definition call := (world * res unit)%type.
(** [raise e] (e.g. networks.py:39). *)
Definition raise (e : exc) (w : world) : call := (w, Err e).
(** Normal return (e.g. networks.py:42). *)
Definition ret (w : world) : call := (w, Ok tt).
(** One statement after another (e.g. networks.py:50-52); an exception ends the function. *)
Definition andthen (c : call) (k : world -> call) : call :=
  match c with (w, Ok _) => k w | (w, Err e) => (w, Err e) end.
(** Calling a method of a node object (e.g. networks.py:50, 56, 62). *)
Definition on_heap (w : world) (r : heap * res unit) : call := (with_heap w (fst r), snd r).

(** An argument that is a name or a node object; objects count as their name
    (nodes.py:43-64). *)
Definition obj_name (h : heap) (i : oid) : string :=
  match nth_error h i with Some n => nname n | None => "" end.
(** E.g. networks.py:46 is called with names or with node objects. *)
Inductive ref := ByName (s : string) | ByNode (i : oid).
(** Both hash and compare as the name (nodes.py:43-64). *)
Definition ref_name (h : heap) (r : ref) : string :=
  match r with
  | ByName s => s
  | ByNode i => obj_name h i
  end.

(** networkx [DiGraph.succ[v]], [pred[v]]: the key objects.  networks.py:49, 103, 158. *)
Definition succs (g : net) (v : string) : list string :=
  map snd (filter (fun e => String.eqb v (fst e)) (gedges g)).
(** [graph.pred[v]] (networks.py:104). *)
Definition preds (g : net) (v : string) : list string :=
  map fst (filter (fun e => String.eqb v (snd e)) (gedges g)).

(** networkx [DiGraph.remove_node], [add_node], [add_edge] (which adds missing
    nodes), [remove_edge].  networks.py:42, 51, 57, 61, 112. *)
Definition graph_remove_node (g : net) (v : string) : net :=
  mkNet (lookup g) (ddel v (ggraph g))
        (filter (fun e => negb (String.eqb v (fst e)) && negb (String.eqb v (snd e))) (gedges g))
        (bname g) (bmeta g).
(** Comparing edges (networks.py:57, 61). *)
Definition edge_eqb (e e' : string * string) : bool :=
  String.eqb (fst e) (fst e') && String.eqb (snd e) (snd e').
(** [graph.add_node(node)] (networks.py:42, 118): an existing node keeps its key object. *)
Definition graph_add_node (g : net) (v : string) (i : oid) : net :=
  mkNet (lookup g) (if dmem v (ggraph g) then ggraph g else dset v i (ggraph g)) (gedges g) (bname g) (bmeta g).
(** [graph.add_edge(u, v)] (networks.py:61, 120, 122). *)
Definition graph_add_edge (g0 : net) (u v : string) (ou ov : oid) : net :=
  let g := graph_add_node (graph_add_node g0 u ou) v ov in
  mkNet (lookup g) (ggraph g)
        (if existsb (edge_eqb (u, v)) (gedges g) then gedges g else gedges g ++ [(u, v)])
        (bname g) (bmeta g).
(** [graph.remove_edge(u, v)] (networks.py:57). *)
Definition graph_remove_edge (g : net) (u v : string) : net :=
  mkNet (lookup g) (ggraph g) (filter (fun e => negb (edge_eqb (u, v) e)) (gedges g)) (bname g) (bmeta g).
(** Assigning to [node_lookup] (networks.py:41, 52, 115-116). *)
Definition set_lookup (g : net) (d : dict oid) : net :=
  mkNet d (ggraph g) (gedges g) (bname g) (bmeta g).

(** networks.py:36-44 [add_node]; the TypeError for other objects than nodes is
    not modelled. *)
Definition add_node (w : world) (i : oid) : call :=
  match nth_error (whp w) i with
  | None => raise AttributeError w
  | Some n =>
      let g := wnet w in
      if dmem (nname n) (lookup g) then raise ValueError w
      else ret (with_net w (graph_add_node (set_lookup g (dset (nname n) i (lookup g))) (nname n) i))
  end.

(** Run [f] for each listed key object of the graph; stop at the first exception.
    networks.py:49-50, 87-88. *)
Fixpoint for_keys (f : world -> oid -> call) (l : list string) (w : world) : call :=
  match l with
  | [] => ret w
  | v :: l' =>
      match dget v (ggraph (wnet w)) with
      | None => raise KeyError w
      | Some i => andthen (f w i) (for_keys f l')
      end
  end.

(** networks.py:46-52 [remove_node]; a node that is not in the graph is ignored. *)
Definition remove_node (w : world) (v : string) : call :=
  if dmem v (ggraph (wnet w)) then
    andthen (for_keys (fun w c =>
               match dget v (lookup (wnet w)) with
               | None => raise KeyError w
               | Some p => on_heap w (remove_parent (whp w) c p)
               end) (succs (wnet w) v) w)
      (fun w' =>
         let g := graph_remove_node (wnet w') v in
         if dmem v (lookup g) then ret (with_net w' (set_lookup g (ddel v (lookup g))))
         else raise KeyError (with_net w' g))
  else ret w.

(** networks.py:54-57 [remove_edge]; unknown nodes are ignored. *)
Definition remove_edge (w : world) (u v : string) : call :=
  if dmem u (ggraph (wnet w)) && dmem v (ggraph (wnet w)) then
    match dget v (lookup (wnet w)), dget u (lookup (wnet w)) with
    | Some c, Some p =>
        andthen (on_heap w (remove_parent (whp w) c p))
          (fun w' => if existsb (edge_eqb (u, v)) (gedges (wnet w'))
                     then ret (with_net w' (graph_remove_edge (wnet w') u v))
                     else raise NetworkXError w')
    | _, _ => raise KeyError w
    end
  else ret w.

(** networks.py:59-66 [add_edge]: the graph edge comes first. *)
Definition add_edge (w : world) (u v : string) : call :=
  if dmem u (ggraph (wnet w)) && dmem v (ggraph (wnet w)) then
    match dget u (lookup (wnet w)), dget v (lookup (wnet w)) with
    | Some p, Some c =>
        let w' := with_net w (graph_add_edge (wnet w) (obj_name (whp w) p) (obj_name (whp w) c) p c) in
        on_heap w' (add_parent (whp w') c p)
    | _, _ => raise KeyError w
    end
  else raise PlainException w.

(** networks.py:75-94 [change_node_values]. *)
Definition change_node_values (w : world) (v : string) (vs : list string) : call :=
  match dget v (lookup (wnet w)) with
  | None => raise PlainException w
  | Some i =>
      andthen (on_heap w (set_values (whp w) i vs))
        (fun w' => if negb (dmem v (ggraph (wnet w'))) then raise KeyError w' else
          for_keys (fun w c =>
            match nth_error (whp w) c with
            | None => raise AttributeError w
            | Some n => on_heap w (refresh (whp w) c n)
            end) (succs (wnet w') v) w')
  end.

(** networks.py:105-109, for one child. *)
Definition rename_in_child (h : heap) (c : oid) (old new : string) (i : oid) : heap * res unit :=
  match nth_error h c with
  | None => (h, Err AttributeError)
  | Some n =>
      if match nkind n with KBase => true | _ => false end then (h, Err AttributeError)
      else if dmem old (nparents n) then
        let d := dset new i (ddel old (nparents n)) in
        match index_of old (nporder n) with
        | None => (list_set c (with_parents n d (nporder n)) h, Err ValueError)
        | Some k => (list_set c (with_parents n d (list_set k new (nporder n))) h, Ok tt)
        end
      else (h, Err KeyError)
  end.

(** networks.py:105-109, all children in turn. *)
Fixpoint rename_in_children (cs : list oid) (old new : string) (i : oid) (w : world) : call :=
  match cs with
  | [] => ret w
  | c :: cs' => andthen (on_heap w (rename_in_child (whp w) c old new i)) (rename_in_children cs' old new i)
  end.

(** networks.py:119-120 (edges from the renamed node [i], [out = true]) and
    121-122 (edges to it): the neighbour objects are looked up again by name. *)
Fixpoint readd_edges (out : bool) (i : oid) (l : list oid) (w : world) : call :=
  match l with
  | [] => ret w
  | o :: l' =>
      match dget (obj_name (whp w) o) (lookup (wnet w)) with
      | None => raise KeyError w
      | Some o' =>
          let x := obj_name (whp w) i in
          let y := obj_name (whp w) o' in
          let g := if out then graph_add_edge (wnet w) x y i o' else graph_add_edge (wnet w) y x o' i in
          readd_edges out i l' (with_net w g)
      end
  end.

(** Objects behind a list of graph keys.  networks.py:103-104. *)
Definition keys_objects (g : net) (l : list string) : res (list oid) :=
  mapM (fun v => dget_err KeyError v (ggraph g)) l.

(** networks.py:96-126 [change_node_name].  If [old] is the node object itself,
    its hash has changed when line 115 deletes the lookup entry: KeyError. *)
Definition change_node_name (w : world) (old : ref) (new : string) : call :=
  let o := ref_name (whp w) old in
  match dget o (lookup (wnet w)) with
  | None => raise PlainException w                                       (* 125 *)
  | Some i =>
      let x := obj_name (whp w) i in
      if negb (dmem x (ggraph (wnet w))) then raise KeyError w else
      match keys_objects (wnet w) (succs (wnet w) x), keys_objects (wnet w) (preds (wnet w) x) with
      | Ok cs, Ok ps =>                                                  (* 103-104 *)
          andthen (rename_in_children cs o new i w)                      (* 105-109 *)
            (fun w1 =>
               let w2 := with_net w1 (graph_remove_node (wnet w1) x) in  (* 112 *)
               let w3 := match nth_error (whp w2) i with                 (* 114 *)
                         | Some n => with_heap w2 (list_set i (with_name n new) (whp w2))
                         | None => w2
                         end in
               let gone := ref_name (whp w3) old in
               if negb (dmem gone (lookup (wnet w3))) then raise KeyError w3 else       (* 115 *)
               let g4 := set_lookup (wnet w3) (dset new i (ddel gone (lookup (wnet w3)))) in
               let w5 := with_net w3 (graph_add_node g4 new i) in        (* 116, 118 *)
               andthen (readd_edges true i cs w5) (readd_edges false i ps))  (* 119-122 *)
      | _, _ => raise KeyError w
      end
  end.

(** networks.py:172-176 [clear]; the nodes keep their attributes, and so does the
    network's [name]. *)
Definition clear (w : world) : call :=
  ret (with_net w (mkNet [] [] [] (bname (wnet w)) (bmeta (wnet w)))).

(** Changing one object's table.  nodes.py:157-174, 176-218 called on an object. *)
Definition on_node (w : world) (i : oid) (f : node -> res node) : call :=
  match nth_error (whp w) i with
  | None => raise AttributeError w
  | Some n => match f n with
              | Ok n' => ret (with_heap w (list_set i n' (whp w)))
              | Err e => raise e w
              end
  end.

(** The calls a program can make; [NewNode] is a constructor call, [Label] assigns
    [bn.name] and [bn.meta], [LabelNode] assigns [node.meta].
    Methods of networks.py:30-176 and nodes.py:74-218. *)
Inductive op :=
| NewNode (k : kind) (name : string) (values : list string)
| AddNode (i : oid)
| AddEdge (u v : string)
| RemoveEdge (u v : string)
| RemoveNode (r : ref)
| ChangeValues (r : ref) (vs : list string)
| ChangeName (r : ref) (new : string)
| Clear
| SetCpd (i : oid) (int : bool) (a : ndarray)
| SetProb (i : oid) (x : string) (p : Qc) (pv : dict string)
| Label (nm : option string) (mt : list (option string))
| LabelNode (i : oid) (mt : list (option string)).

(** One call, with whatever exception it raises (caught by the caller).
    Methods of networks.py:30-176 and nodes.py:74-218. *)
Definition exec (w : world) (o : op) : call :=
  match o with
  | NewNode k name values => ret (with_heap w (whp w ++ [new_node k name values]))
  | AddNode i => add_node w i
  | AddEdge u v => add_edge w u v
  | RemoveEdge u v => remove_edge w u v
  | RemoveNode r => remove_node w (ref_name (whp w) r)
  | ChangeValues r vs => change_node_values w (ref_name (whp w) r) vs
  | ChangeName r new => change_node_name w r new
  | Clear => clear w
  | SetCpd i int a => on_node w i (fun n => set_cpd n int a)
  | SetProb i x p pv => on_node w i (fun n => set_probability (whp w) n x p pv)
  | Label nm mt => ret (with_net w (mkNet (lookup (wnet w)) (ggraph (wnet w)) (gedges (wnet w)) nm mt))
  | LabelNode i mt => on_node w i (fun n => Ok (with_meta n mt))
  end.

(** Before any node is created; [BayesianNetwork()] (networks.py:30-34). *)
Definition start : world := mkW [] empty_net.

(** The network as the inference code reads it (Exact.v): node_lookup in order,
    each node with the values of its parent objects.
    nodes.py:85-90; read by factor.py:412-421 and nodes.py:300-315. *)
Definition snapshot_node (h : heap) (n : node) : dnode :=
  mkN (nname n) (nvalues n)
      (map (fun p => (p, match parent_values h n p with Ok vs => vs | Err _ => [] end)) (nporder n))
      (dkeys (nparents n)) (tarr (ncpd n)).

(** The object behind a reference (no line of its own in /repo). *)
Definition deref (h : heap) (i : oid) : node := nth i h (new_node KBase "" []).

(** networks.py:30-34, as read by exact.py:64-71, 129, 201-209. *)
Definition view (w : world) : bn :=
  mkBN (map (fun p => snapshot_node (whp w) (deref (whp w) (snd p))) (lookup (wnet w)))
       (dkeys (ggraph (wnet w))) (gedges (wnet w)).
