(** Which exception a call on a network, its nodes or a factor raises. *)
From Verif Require Import Base NDArray Node Network NetSpec NetView Decision DecSpec Factor Exact Spec.

Definition names (w : world) : list string := dkeys (lookup (wnet w)).

(** The values asked for do not exist: of the node, or of one of its parents.  A node without
    values ignores the value; names that are not parents are ignored. *)
Definition unknown_value (n : node) (x : string) : Prop := nvalues n <> [] /\ ~ In x (nvalues n).
Definition unknown_parent_value (w : world) (n : node) (pv : dict string) : Prop :=
  exists q y, In q (nporder n) /\ dget q pv = Some y /\ ~ In y (vals_of w q).
Definition picks (k : pick) (y : string) : Prop := match k with One x => y = x | Many l => In y l end.
Definition unknown_pick (w : world) (n : node) (pv : dict pick) : Prop :=
  exists q k y, In q (nporder n) /\ dget q pv = Some k /\ picks k y /\ ~ In y (vals_of w q).

(** Parents for which a state has no value, or an unknown one; [vals] are the parents' values. *)
Definition missing (n : node) (st : dict string) : Prop := exists q, In q (nporder n) /\ ~ In q (dkeys st).
Definition wrong (vals : string -> list string) (n : node) (st : dict string) : Prop :=
  exists q y, In q (nporder n) /\ dget q st = Some y /\ ~ In y (vals q).

Inductive raises (w : world) : op -> exc -> Prop :=
| R_twice i n : nth_error (whp w) i = Some n -> In (nname n) (names w) -> raises w (AddNode i) ValueError
| R_no_end u v : ~ (In u (names w) /\ In v (names w)) -> raises w (AddEdge u v) PlainException
| R_no_edge u v : In u (names w) -> In v (names w) -> ~ edge w u v -> raises w (RemoveEdge u v) KeyError
| R_no_node r vs : ~ In (ref_name (whp w) r) (names w) -> raises w (ChangeValues r vs) PlainException
| R_no_name s new : ~ In s (names w) -> raises w (ChangeName (ByName s) new) PlainException
| R_shape v i n int a : holds w v i n -> shape a <> right_shape w n -> raises w (SetCpd i int a) ValueError
| R_value v i n x p pv : holds w v i n -> unknown_value n x \/ unknown_parent_value w n pv -> raises w (SetProb i x p pv) ValueError.

(** The objects named in a call exist; tables are set on nodes of the network. *)
Definition objects_exist (w : world) (o : op) : Prop :=
  match o with
  | AddNode i | LabelNode i _ => exists n, nth_error (whp w) i = Some n
  | SetCpd i _ _ | SetProb i _ _ _ => exists v n, holds w v i n
  | _ => True
  end.

(** ** Decision networks *)
(** The values of the parent object called [q]. *)
Definition dpvals (h : heap) (n : node) (q : string) : list string :=
  match dget q (nparents n) with
  | Some o => match nth_error h o with Some m => nvalues m | None => [] end
  | None => []
  end.

(** One axis for the node's own values, if it has any, and one for each parent. *)
Definition axes (h : heap) (n : node) : list nat :=
  (match nkind n with KUtility => [] | _ => match nvalues n with [] => [] | _ :: _ => [length (nvalues n)] end end) ++
  map (fun q => length (dpvals h n q)) (nporder n).

Definition unknown_for (h : heap) (n : node) (pv : dict string) : Prop :=
  exists q y, In q (nporder n) /\ dget q pv = Some y /\ ~ In y (dpvals h n q).

Inductive draises (w : dworld) : dop -> exc -> Prop :=
| D_ends u v : ~ (In u (dkeys (dlook w)) /\ In v (dkeys (dlook w))) -> draises w (DEdge u v) KeyError
| D_cpd_class i n int a : nth_error (dheap w) i = Some n -> nkind n <> KDiscrete -> draises w (DCpd i int a) NotImplementedError
| D_cpd i n int a : nth_error (dheap w) i = Some n -> nkind n = KDiscrete -> shape a <> axes (dheap w) n -> draises w (DCpd i int a) ValueError
| D_prob_class i n x p pv : nth_error (dheap w) i = Some n -> nkind n <> KDiscrete -> draises w (DProb i x p pv) AttributeError
| D_prob i n x p pv : nth_error (dheap w) i = Some n -> nkind n = KDiscrete ->
    unknown_value n x \/ unknown_for (dheap w) n pv -> draises w (DProb i x p pv) ValueError
| D_utils_class i n int a : nth_error (dheap w) i = Some n -> nkind n <> KUtility -> draises w (DUtilities i int a) AttributeError
| D_utils i n int a : nth_error (dheap w) i = Some n -> nkind n = KUtility -> shape a <> axes (dheap w) n -> draises w (DUtilities i int a) ValueError
| D_util_class i n u pv : nth_error (dheap w) i = Some n -> nkind n <> KUtility -> draises w (DUtility i u pv) AttributeError
| D_util i n u pv : nth_error (dheap w) i = Some n -> nkind n = KUtility -> unknown_for (dheap w) n pv -> draises w (DUtility i u pv) ValueError
| D_util_fresh i n q u pv : nth_error (dheap w) i = Some n -> nkind n = KUtility -> ncpd n = TNum q -> draises w (DUtility i u pv) TypeError
| D_decide_class i n d : nth_error (dheap w) i = Some n -> nkind n <> KDecision -> draises w (DDecide i d) AttributeError
| D_decide i n d : nth_error (dheap w) i = Some n -> nkind n = KDecision -> unknown_value n d -> draises w (DDecide i d) ValueError
| D_mixed_class i n : nth_error (dheap w) i = Some n -> nkind n <> KDecision -> draises w (DMixed i) AttributeError
| D_mixed i n : nth_error (dheap w) i = Some n -> nkind n = KDecision -> nvalues n = [] -> draises w (DMixed i) NonFinite.

Definition dobject_of (o : dop) : option oid :=
  match o with
  | DAdd i | DCpd i _ _ | DProb i _ _ _ | DUtilities i _ _ | DUtility i _ _ | DDecide i _ | DMixed i => Some i
  | _ => None
  end.

(** ** Queries *)

(** Evidence that does not fit the values of its variable. *)
Definition improper (b : bn) (v : string) (e : evid) : Prop :=
  match e with Hard x => ~ In x (values_of b v) | Soft q => length q <> length (values_of b v) end.

(** No negative weights. *)
Definition weights_ok (ev : evidence) : Prop := forall v q, In (v, Soft q) ev -> Forall (fun x => 0 <= x)%Qc q.

(** Turning weights [q] into a likelihood for the old marginal [old], whose largest weight is at [ref]: what
    goes wrong at position [i]. *)
Inductive troubled (q old : list Qc) (ref i : nat) : exc -> Prop :=
| T_short : i < length q -> i <> ref -> length old <= i -> troubled q old ref i IndexError
| T_short_ref : i < length q -> i <> ref -> i < length old -> nth i old 0%Qc <> 0%Qc -> length old <= ref -> troubled q old ref i IndexError
| T_division : i < length q -> i <> ref -> i < length old -> nth i old 0%Qc <> 0%Qc -> ref < length old -> nth ref q 0%Qc = 0%Qc ->
    troubled q old ref i NonFinite.
