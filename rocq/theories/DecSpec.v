(** What decision networks mean, and which calls build sound ones. *)
From Verif Require Import Base NDArray Factor Exact Spec Node Network NetSpec Decision.

(** [v] names the object [i] with attributes [n]. *)
Definition dholds (w : dworld) (v : string) (i : oid) (n : node) : Prop :=
  dget v (dlook w) = Some i /\ nth_error (dheap w) i = Some n.

(** Calls within the contract, in state [w]:
    - nodes are discrete, decision or utility nodes; a node added to the network
      has a new name and no parents yet (add_node would silently replace a node of
      the same name), or is already in it;
    - edges come from chance or decision nodes, are not loops and not added twice.
    Calls that raise because of unknown names are within the contract. *)
Definition dwithin (w : dworld) (o : dop) : Prop :=
  match o with
  | DAdd i => forall n, nth_error (dheap w) i = Some n -> nkind n <> KBase /\
                (dget (nname n) (dlook w) = Some i \/ (~ In (nname n) (dkeys (dlook w)) /\ nporder n = []))
  | DEdge u v => forall i n p m, dholds w v i n -> dholds w u p m ->
                   u <> v /\ ~ In u (nporder n) /\ nkind m <> KUtility
  | DCpd _ _ a | DUtilities _ _ a => real_array a
  | _ => True
  end.

Inductive dreached : dworld -> Prop :=
| dreached_start : dreached dstart
| dreached_call w o : dreached w -> dwithin w o -> dreached (fst (dexec w o)).

Fixpoint drun (w : dworld) (os : list dop) : dworld :=
  match os with [] => w | o :: os' => drun (fst (dexec w o)) os' end.
Fixpoint dall_within (w : dworld) (os : list dop) : Prop :=
  match os with [] => True | o :: os' => dwithin w o /\ dall_within (fst (dexec w o)) os' end.

(** Chance and decision nodes have distinct values, at least one. *)
Definition dtidy (w : dworld) : Prop :=
  forall v i n, dholds w v i n -> nkind n <> KUtility -> nvalues n <> [] /\ NoDup (nvalues n).

(** The chance and decision nodes as a network of conditional tables, and the
    utility nodes. *)
Definition dobjects (w : dworld) (P : node -> bool) : list dnode :=
  map (snapshot_node (dheap w)) (filter P (map (fun p => deref (dheap w) (snd p)) (dlook w))).
Definition is_decision (n : node) : bool := match nkind n with KDecision => true | _ => false end.
Definition is_chance (n : node) : bool := match nkind n with KDiscrete => true | _ => false end.
Definition dbn (w : dworld) : bn := mkBN (dobjects w (fun n => negb (is_utility n))) [] [].
Definition dchance (w : dworld) : list dnode := dobjects w is_chance.
Definition drules (w : dworld) : list dnode := dobjects w is_decision.
Definition dutils (w : dworld) : list dnode := dobjects w is_utility.

(** The utility a node assigns to a state, and the sum over all utility nodes. *)
Definition utility (u : dnode) (s : dict string) : Qc :=
  aget (dn_cpd u) (map (fun p => position (look s (fst p)) (snd p)) (dn_parents u)).
Definition utilities (w : dworld) (s : dict string) : Qc := qsum (map (fun u => utility u s) (dutils w)).

(** Acting: with the decisions [ds] taken, the tables of the other chance and
    decision nodes remain; their product is summed, times [U], over the joint states
    in which the decisions are [ds]. *)
Definition open_nodes (w : dworld) (ds : dict string) : list dnode :=
  filter (fun n => negb (mem (dn_name n) (dkeys ds))) (bnodes (dbn w)).
Definition plan_sum (w : dworld) (ds : dict string) (U : dict string -> Qc) : Qc :=
  qsum (map (fun s => qprod (map (fun n => entry n s) (open_nodes w ds)) * U s)%Qc
            (filter (agrees ds) (states (bvars (dbn w))))).

(** The expectation of the summed utilities. *)
Definition plan_value (w : dworld) (ds : dict string) : Qc :=
  (plan_sum w ds (utilities w) / plan_sum w ds (fun _ => 1%Qc))%Qc.

(** The same when every decision is taken: only the chance tables remain. *)
Definition chance_sum (w : dworld) (ds : dict string) (U : dict string -> Qc) : Qc :=
  qsum (map (fun s => qprod (map (fun n => entry n s) (dchance w)) * U s)%Qc
            (filter (agrees ds) (states (bvars (dbn w))))).

(** Decisions for decision nodes of the network, with existing values. *)
Definition legal_decisions (w : dworld) (ds : dict string) : Prop :=
  NoDup (dkeys ds) /\
  forall v d, In (v, d) ds -> exists i n, dholds w v i n /\ nkind n = KDecision /\ In d (nvalues n).

(** ... for every decision node. *)
Definition all_decided (w : dworld) (ds : dict string) : Prop :=
  legal_decisions w ds /\ forall v i n, dholds w v i n -> nkind n = KDecision -> In v (dkeys ds).

(** Tables of non-negative numbers, with columns that sum to one. *)
Definition nonneg_tables (l : list dnode) : Prop :=
  forall n, In n l -> Forall (fun x => (0 <= x)%Qc) (data (dn_cpd n)).
Definition stochastic_tables (l : list dnode) : Prop :=
  forall n s, In n l -> qsum (map (fun x => entry n ((dn_name n, x) :: s)) (dn_values n)) = 1%Qc.
