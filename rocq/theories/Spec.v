(** Reference semantics of discrete Bayesian networks, written without the
    factor code: states are dictionaries from variables to value names. *)
From Verif Require Import Base NDArray Factor Exact.

(** All complete instantiations of the listed variables. *)
Fixpoint states (vars : list (string * list string)) : list (dict string) :=
  match vars with
  | [] => [[]]
  | (v, vals) :: vars' => flat_map (fun x => map (cons (v, x)) (states vars')) vals
  end.

Definition look (s : dict string) (v : string) : string :=
  match dget v s with Some x => x | None => "" end.

(** Position of a value in its value list. *)
Definition position (x : string) (vals : list string) : nat :=
  match index_of x vals with Some i => i | None => 0 end.

(** P(node = s(node) | parents = s(parents)): the table entry. *)
Definition entry (n : dnode) (s : dict string) : Qc :=
  aget (dn_cpd n)
       (map (fun p => position (look s (fst p)) (snd p)) ((dn_name n, dn_values n) :: dn_parents n)).

(** Weight the evidence gives to the state: hard evidence is an indicator, soft
    evidence a likelihood per value. *)
Definition evidence_weight (ev : evidence) (n : dnode) (s : dict string) : Qc :=
  match dget (dn_name n) ev with
  | None => 1%Qc
  | Some (Hard x) => if String.eqb (look s (dn_name n)) x then 1%Qc else 0%Qc
  | Some (Soft q) => nth (position (look s (dn_name n)) (dn_values n)) q 0%Qc
  end.

(** The joint probability of a state, and its product with the evidence. *)
Definition joint (b : bn) (s : dict string) : Qc := qprod (map (fun n => entry n s) (bnodes b)).
Definition weight (b : bn) (ev : evidence) (s : dict string) : Qc :=
  (joint b s * qprod (map (fun n => evidence_weight ev n s) (bnodes b)))%Qc.

Definition bvars (b : bn) : list (string * list string) :=
  map (fun n => (dn_name n, dn_values n)) (bnodes b).

Definition agrees (q s : dict string) : bool :=
  forallb (fun p => String.eqb (look s (fst p)) (snd p)) q.

(** Mass of all states that agree with the partial instantiation [q]. *)
Definition mass (b : bn) (ev : evidence) (q : dict string) : Qc :=
  qsum (map (weight b ev) (filter (agrees q) (states (bvars b)))).

(** P(q | evidence); 0 if the evidence is impossible. *)
Definition posterior (b : bn) (ev : evidence) (q : dict string) : Qc :=
  if qeqb (mass b ev []) 0%Qc then 0%Qc else (mass b ev q / mass b ev [])%Qc.

(** Value lists of the network's variables. *)
Definition values_of (b : bn) (v : string) : list string :=
  match find (fun n => String.eqb v (dn_name n)) (bnodes b) with
  | Some n => dn_values n
  | None => []
  end.

(** [q] instantiates exactly the variables [vs], each once, with legal values. *)
Definition is_inst (b : bn) (vs : list string) (q : dict string) : Prop :=
  NoDup (dkeys q) /\ (forall v, In v (dkeys q) <-> In v vs) /\
  forall v x, In (v, x) q -> In x (values_of b v).

(** The entry of a factor's table at a named instantiation. *)
Definition potential_at (f : factor) (q : dict string) : Qc :=
  aget (pot f) (map (fun v => position (look q v)
                               (match dget v (fvals f) with Some l => l | None => [] end)) (vorder f)).

(** A factor that reports, for every instantiation of exactly the variables
    [vs], the number [P]; its variables, axes and value lists fit. *)
Definition reports (b : bn) (f : factor) (vs : list string) (P : dict string -> Qc) : Prop :=
  NoDup (vorder f) /\ (forall v, In v (vorder f) <-> In v vs) /\
  (forall v, In v (vorder f) -> dget v (fvals f) = Some (values_of b v)) /\
  (forall v, In v (dkeys (fvals f)) <-> In v (vorder f)) /\
  shape (pot f) = map (fun v => length (values_of b v)) (vorder f) /\
  length (data (pot f)) = prodn (shape (pot f)) /\
  forall q, is_inst b vs q -> potential_at f q = P q.

(** Networks built through the API: what Network.v proves of every reachable
    network ([view_wf]). *)
Record wf_node (b : bn) (n : dnode) : Prop := {
  wn_values : dn_values n <> [] /\ NoDup (dn_values n);
  wn_parents : NoDup (dn_name n :: map fst (dn_parents n));
  wn_pvals : forall p vals, In (p, vals) (dn_parents n) ->
     exists m, In m (bnodes b) /\ dn_name m = p /\ dn_values m = vals;
  wn_shape : shape (dn_cpd n) = map (fun p => length (snd p)) ((dn_name n, dn_values n) :: dn_parents n);
  wn_arr : length (data (dn_cpd n)) = prodn (shape (dn_cpd n));
  wn_pdict : Permutation (dn_pdict n) (map fst (dn_parents n))
}.

Record wf_bn (b : bn) : Prop := {
  wb_names : NoDup (bnames b);
  wb_nodes : forall n, In n (bnodes b) -> wf_node b n
}.

(** Tables hold non-negative numbers. *)
Definition nonneg_bn (b : bn) : Prop :=
  forall n, In n (bnodes b) -> Forall (fun x => (0 <= x)%Qc) (data (dn_cpd n)).

(** Each column of each table sums to one. *)
Definition stochastic_bn (b : bn) : Prop :=
  forall n s, In n (bnodes b) ->
    qsum (map (fun x => entry n ((dn_name n, x) :: s)) (dn_values n)) = 1%Qc.

(** Evidence on variables of the network uses existing values, or one
    non-negative weight per value. *)
Definition ev_ok (b : bn) (ev : evidence) : Prop :=
  NoDup (dkeys ev) /\
  forall v e, In (v, e) ev -> In v (bnames b) ->
    match e with
    | Hard x => In x (values_of b v)
    | Soft q => length q = length (values_of b v) /\ Forall (fun x => (0 <= x)%Qc) q
    end.
