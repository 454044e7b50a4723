(** What a network object should look like, and which calls are within the
    contract of the API. *)
From Verif Require Import Base NDArray Node Network.

(** [v] names the object [i] with attributes [n]. *)
Definition holds (w : world) (v : string) (i : oid) (n : node) : Prop :=
  dget v (lookup (wnet w)) = Some i /\ nth_error (whp w) i = Some n.

Definition edge (w : world) (u v : string) : Prop := In (u, v) (gedges (wnet w)).

(** Node lookup, graph and parent lists agree. *)
Record consistent (w : world) : Prop := {
  co_lookup : NoDup (dkeys (lookup (wnet w)));
  co_graph : NoDup (dkeys (ggraph (wnet w)));
  co_same : forall v i, dget v (ggraph (wnet w)) = Some i <-> dget v (lookup (wnet w)) = Some i;
  co_named : forall v i, dget v (lookup (wnet w)) = Some i ->
     exists n, nth_error (whp w) i = Some n /\ nname n = v;
  co_edges : NoDup (gedges (wnet w));
  co_ends : forall u v, edge w u v -> In u (dkeys (lookup (wnet w))) /\ In v (dkeys (lookup (wnet w)));
  co_order : forall v i n, holds w v i n -> NoDup (nporder n);
  co_parents : forall v i n u, holds w v i n -> (In u (nporder n) <-> edge w u v);
  co_pkeys : forall v i n, holds w v i n -> NoDup (dkeys (nparents n));
  co_pdict : forall v i n u o, holds w v i n ->
     (dget u (nparents n) = Some o <-> edge w u v /\ dget u (lookup (wnet w)) = Some o)
}.

(** Number of values of the parent [u]. *)
Definition size (w : world) (u : string) : nat :=
  match dget u (lookup (wnet w)) with
  | Some i => match nth_error (whp w) i with Some n => length (nvalues n) | None => 0 end
  | None => 0
  end.

(** One axis for the node's values (none if it has no values) and one per parent
    in parent order. *)
Definition right_shape (w : world) (n : node) : list nat :=
  (if nvalues n then [] else [length (nvalues n)]) ++ map (size w) (nporder n).

Definition fitting (w : world) : Prop :=
  forall v i n, holds w v i n -> nkind n = KDiscrete /\ tshape (ncpd n) = right_shape w n.

(** Arrays have as many elements as their shape says. *)
Definition real_array (a : ndarray) : Prop := length (data a) = prodn (shape a).

(** Calls within the contract, in state [w]:
    - nodes added to the network are discrete and have no parents yet
      (add_node copies nothing, so a removed node brings its old parents along);
    - an edge is not added twice;
    - a new name is not in use, and the node to rename is given by name.
    Calls that raise because of unknown names are within the contract. *)
Definition within (w : world) (o : op) : Prop :=
  match o with
  | AddNode i => forall n, nth_error (whp w) i = Some n -> nkind n = KDiscrete /\ nporder n = []
  | AddEdge u v => ~ edge w u v
  | ChangeName r new =>
      (exists s, r = ByName s) /\ (ref_name (whp w) r = new \/ ~ In new (dkeys (lookup (wnet w))))
  | SetCpd _ _ a => real_array a
  | _ => True
  end.

(** States reached by calls within the contract. *)
Inductive reached : world -> Prop :=
| reached_start : reached start
| reached_call w o : reached w -> within w o -> reached (fst (exec w o)).

(** The calls that change the structure of node [i]: a parent added or removed,
    its values changed, or the values of a parent changed. *)
Definition restructures (w : world) (o : op) (i : oid) : Prop :=
  snd (exec w o) = Ok tt /\
  match o with
  | AddEdge u v => dget v (lookup (wnet w)) = Some i
  | RemoveEdge u v => edge w u v /\ dget v (lookup (wnet w)) = Some i
  | RemoveNode r => exists v, edge w (ref_name (whp w) r) v /\ dget v (lookup (wnet w)) = Some i
  | ChangeValues r _ => dget (ref_name (whp w) r) (lookup (wnet w)) = Some i \/
                        exists v, edge w (ref_name (whp w) r) v /\ dget v (lookup (wnet w)) = Some i
  | _ => False
  end.

Definition sets_table (w : world) (o : op) (i : oid) : Prop :=
  snd (exec w o) = Ok tt /\ match o with SetCpd j _ _ => j = i | _ => False end.

(** [table_current w0 os i]: running the calls [os] from [w0], set_cpd succeeded
    on node [i] after the last call that restructured it. *)
Fixpoint run (w : world) (os : list op) : world :=
  match os with [] => w | o :: os' => run (fst (exec w o)) os' end.

Definition table_current (w : world) (os : list op) (i : oid) : Prop :=
  exists pre o post, os = pre ++ o :: post /\ sets_table (run w pre) o i /\
    forall p1 o' p2, post = p1 ++ o' :: p2 -> ~ restructures (run w (pre ++ o :: p1)) o' i.

Fixpoint all_within (w : world) (os : list op) : Prop :=
  match os with [] => True | o :: os' => within w o /\ all_within (fst (exec w o)) os' end.

(** Structural edits and their effect on a restructured node. *)
Definition edit (o : op) : Prop :=
  match o with AddEdge _ _ | RemoveEdge _ _ | RemoveNode _ | ChangeValues _ _ => True | _ => False end.

Definition other_than (u q : string) : bool := negb (String.eqb u q).
Definition order_after (w : world) (o : op) (n : node) : list string :=
  match o with
  | AddEdge u _ => nporder n ++ [u]
  | RemoveEdge u _ => filter (other_than u) (nporder n)
  | RemoveNode r => filter (other_than (ref_name (whp w) r)) (nporder n)
  | _ => nporder n
  end.
Definition values_after (w : world) (o : op) (j : oid) (n : node) : list string :=
  match o with
  | ChangeValues r vs => match dget (ref_name (whp w) r) (lookup (wnet w)) with
                         | Some i => if Nat.eqb i j then vs else nvalues n
                         | None => nvalues n
                         end
  | _ => nvalues n
  end.

(** The table is all zero, of the right shape, and the node invalid. *)
Definition blank (w : world) (n : node) : Prop :=
  nvalid n = false /\ exists a, ncpd n = TArr false a /\ shape a = right_shape w n /\
    real_array a /\ Forall (fun q => q = 0%Qc) (data a).

(** The objects a structural edit may write, in any state: the child of the edge,
    the children of the node, the node whose values change. *)
Definition touched (w : world) (o : op) (j : oid) : Prop :=
  match o with
  | AddEdge _ v | RemoveEdge _ v => dget v (lookup (wnet w)) = Some j
  | RemoveNode r => exists c, edge w (ref_name (whp w) r) c /\ dget c (ggraph (wnet w)) = Some j
  | ChangeValues r _ => dget (ref_name (whp w) r) (lookup (wnet w)) = Some j \/
                        exists c, edge w (ref_name (whp w) r) c /\ dget c (ggraph (wnet w)) = Some j
  | _ => False
  end.
