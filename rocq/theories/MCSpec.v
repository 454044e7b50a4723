(** What sampling is supposed to do, in terms of states and the joint distribution. *)
From Verif Require Import Base NDArray Factor Exact Spec OrderSpec TreeSpec Sampling.

(** Networks on which sampling is meant to work: built through the API (the graph
    lists every arc once), with non-negative tables. *)
Record sampled_net (b : bn) : Prop := {
  sn_bn : wf_bn b;
  sn_graph : wf_graph b;
  sn_edges : edges_match b;
  sn_once : NoDup (bedges b);
  sn_nonneg : nonneg_bn b
}.

(** Every variable has one of its values. *)
Definition complete (b : bn) (st : state) : Prop :=
  forall v, In v (bnames b) -> exists x, dget v st = Some x /\ In x (values_of b v).

(** The state keeps the evidence; the evidence is legal. *)
Definition keeps (ev st : state) : Prop := forall v x, dget v ev = Some x -> dget v st = Some x.
Definition legal_ev (b : bn) (ev : state) : Prop :=
  forall v x, In v (bnames b) -> dget v ev = Some x -> In x (values_of b v).

(** Orders with parents before their children. *)
Definition topological (b : bn) (l : list string) : Prop :=
  Permutation (bnames b) l /\
  forall pre v post n, l = pre ++ v :: post -> In n (bnodes b) -> dn_name n = v ->
    incl (map fst (dn_parents n)) pre.

(** The first [i] weights. *)
Definition upto (ws : list Qc) (i : nat) : Qc := qsum (firstn i ws).

(** The joint probabilities of the states that differ from [st] at [v] only. *)
Definition column (b : bn) (v : string) (st : state) : list Qc :=
  map (fun x => joint b (dset v x st)) (values_of b v).

(** A number in the half-open interval. *)
Definition between (r : Qc) (p : Qc * Qc) : Prop := (fst p < r)%Qc /\ (r <= snd p)%Qc.
Definition width (p : Qc * Qc) : Qc := (snd p - fst p)%Qc.

(** [x] with its value for [v] replaced by each possible one: the column of the
    conditional table that [x] selects. *)
Definition conditional (n : dnode) (x : state) : list Qc :=
  map (fun y => entry n (dset (dn_name n) y x)) (dn_values n).

(** Number of states that agree with [q]. *)
Definition hits (q : dict string) (l : list state) : nat := length (filter (agrees q) l).

(** Product of the entries of all tables that do not mention [v]. *)
Definition elsewhere (b : bn) (v : string) (st : state) : Qc :=
  qprod (map (fun m => entry m st) (filter (fun m => negb (mem v (dn_name m :: map fst (dn_parents m)))) (bnodes b))).
