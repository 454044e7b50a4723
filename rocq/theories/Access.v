(** Model of the accessors of primo2/networks.py, class BayesianNetwork. *)
From Verif Require Import Base NDArray Node Factor Exact Network.

(** networks.py:128-129 [get_all_nodes]: the key objects of the graph. *)
Definition get_all_nodes (g : net) : list oid := map snd (ggraph g).

(** networks.py:131-132 [get_all_node_names]. *)
Definition get_all_node_names (g : net) : list string := dkeys (lookup g).

(** networks.py:68-73 [get_node]. *)
Definition get_object (g : net) (v : string) : res oid := dget_err PlainException v (lookup g).

(** networks.py:134-141 [get_nodes]; [None] is the default argument. *)
Definition get_nodes (g : net) (names : option (list string)) : res (list oid) :=
  match names with
  | None => Ok (get_all_nodes g)
  | Some l => mapM (get_object g) l
  end.

(** networks.py:143-158 [get_children]; networkx raises KeyError for unknown nodes. *)
Definition get_child_objects (g : net) (v : string) : res (list oid) :=
  if dmem v (ggraph g) then keys_objects g (succs g v) else Err KeyError.

(** networks.py:178-184 [number_of_nodes], [__len__]. *)
Definition number_of_nodes (g : net) : nat := length (ggraph g).
