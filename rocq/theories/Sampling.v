(** Model of the sampling code: nodes.py:276-407 (on the snapshot of Exact.v; NetView.v
    relates it to the heap), networks.py:143-170 and primo2/inference/mcmc.py. *)
From Verif Require Import Base NDArray Factor Exact.

(** Python's [random] module: the [k]-th call of the program returns [unif k] if it
    is [random.random()], and picks the element at position [choose k] (modulo the
    length) if it is [random.choice].  A call counter is threaded through the code.
    nodes.py:385, 407; mcmc.py:190, 228, 231, 240. *)
Record rng := mkRng { unif : nat -> Qc; choose : nat -> nat }.

(** Values of the generator: [random.random()] lies in [0, 1). *)
Definition rng_ok (g : rng) : Prop := forall k, (0 <= unif g k)%Qc /\ (unif g k < 1)%Qc.

(** [random.choice(l)]: IndexError for an empty list.  nodes.py:407; mcmc.py:190, 231. *)
Definition choice {A} (g : rng) (k : nat) (l : list A) : res (A * nat) :=
  match l with
  | [] => Err IndexError
  | x :: _ => Ok (nth (Nat.modulo (choose g k) (length l)) l x, S k)
  end.

(** A state: variable names to value names (keys that are node objects count as
    their names, nodes.py:43-64). *)
Notation state := (dict string).

(** nodes.py:276-315 [_get_single_probability]. *)
Definition sp (n : dnode) (x : string) (st : state) : res Qc :=
  let* i := match dn_values n with
            | [] => Ok []
            | _ :: _ => let* i := py_index x (dn_values n) in Ok [i]
            end in
  let* s := mapM (fun p => let* y := dget_err KeyError (fst p) st in py_index y (snd p)) (dn_parents n) in
  aget_err (dn_cpd n) (i ++ s).

(** networks.py:143-158 [get_children]: graph.succ, in the order the edges were
    added; KeyError for a node that is not in the graph. *)
Definition get_children (b : bn) (v : string) : res (list dnode) :=
  if mem v (border b) then mapM (get_node b) (map snd (filter (fun e => String.eqb v (fst e)) (bedges b)))
  else Err KeyError.

(** nodes.py:317-349 [get_markov_prob]. *)
Definition get_markov_prob (n : dnode) (x : string) (children : list dnode) (st : state) (forward : bool) : res Qc :=
  let* p := sp n x st in
  if forward then Ok p
  else foldM (fun p c => let* y := dget_err KeyError (dn_name c) st in
                         let* q := sp c y st in Ok (p * q)%Qc) children p.

(** nodes.py:383-390: roulette wheel. *)
Fixpoint roulette (values : list string) (ws : list Qc) (s r : Qc) : option string :=
  match values, ws with
  | x :: values', w :: ws' => if qleb r (s + w)%Qc then Some x else roulette values' ws' (s + w)%Qc r
  | _, _ => None
  end.

(** nodes.py:351-390 [sample_value].  Where Python returns None (a node without
    values, or negative weights) the model stops with [NonFinite]. *)
Definition sample_value (g : rng) (k : nat) (n : dnode) (st : state) (children : list dnode) (forward : bool)
  : res (string * nat) :=
  let* ws := mapM (fun x => get_markov_prob n x children (dset (dn_name n) x st) forward) (dn_values n) in
  match roulette (dn_values n) ws 0%Qc (unif g k * fold_left Qcplus ws 0)%Qc with
  | Some x => Ok (x, S k)
  | None => Err NonFinite
  end.

(** networks.py:160-170 [get_sample].  [order] is the sequence networkx's
    topological_sort yields for the graph (for a cyclic graph it raises; not
    modelled). *)
Definition sample_one (g : rng) (b : bn) (ev : state) (acc : state * nat) (v : string) : res (state * nat) :=
  if dmem v ev then Ok acc
  else let* n := get_node b v in
       let* cs := get_children b v in
       let* (x, k) := sample_value g (snd acc) n (fst acc) cs true in
       Ok (dset v x (fst acc), k).

(** networks.py:160-170 [get_sample]. *)
Definition get_sample (g : rng) (k : nat) (b : bn) (order : list string) (ev : state) : res (state * nat) :=
  foldM (sample_one g b ev) order (fold_left (fun d p => dset (fst p) (snd p) d) ev [], k).

(** mcmc.py:165-193 [GibbsTransition.step], one variable. *)
Definition gibbs_one (g : rng) (b : bn) (acc : state * nat) (v : string) : res (state * nat) :=
  let* n := get_node b v in
  let* cs := get_children b v in
  let* (x, k) := sample_value g (snd acc) n (fst acc) cs false in
  Ok (dset v x (fst acc), k).

(** mcmc.py:227 and 238: [min(1.0, proposedProb/currentProb)].  The operands are
    numpy numbers, so division by zero gives inf or nan, and [min] returns 1.0 for
    both ([nan < 1.0] is false). *)
Definition accept_prob (proposed current : Qc) : Qc :=
  if qeqb current 0%Qc then 1%Qc
  else if qltb (proposed / current)%Qc 1%Qc then (proposed / current)%Qc else 1%Qc.

(** mcmc.py:198-243 [MetropolisHastingsTransition.step], one variable (220-229,
    231-241); [sample_local] is nodes.py:392-407. *)
Definition mh_one (g : rng) (b : bn) (acc : state * nat) (v : string) : res (state * nat) :=
  let* cur := dget_err KeyError v (fst acc) in
  let* n := get_node b v in
  let* (y, k) := choice g (snd acc) (dn_values n) in
  let* cs := get_children b v in
  let* proposed := get_markov_prob n y cs (dset v y (fst acc)) false in
  let* current := get_markov_prob n cur cs (fst acc) false in
  Ok (if qleb (unif g k) (accept_prob proposed current) then dset v y (fst acc) else fst acc, S k).

(** The classes at mcmc.py:163 and 196. *)
Inductive transition := Gibbs | MetropolisHastings.

(** The loop bodies mcmc.py:188, 191 and 221-229, 232-241. *)
Definition change_one (t : transition) := match t with Gibbs => gibbs_one | MetropolisHastings => mh_one end.

(** [step] of both transition models: all variables in turn, or one chosen at
    random.  mcmc.py:165-193, 198-243. *)
Definition step (t : transition) (full : bool) (g : rng) (b : bn) (vars : list string) (acc : state * nat)
  : res (state * nat) :=
  if full then foldM (change_one t g b) vars acc
  else let* (v, k) := choice g (snd acc) vars in change_one t g b (fst acc, k) v.

(** mcmc.py:145: the variables to change; [node not in None] is a TypeError. *)
Definition free_vars (b : bn) (ev : state) : list string := filter (fun v => negb (dmem v ev)) (border b).

(** mcmc.py:145 with [evidence=None] (117). *)
Definition vars_to_change (b : bn) (ev : option state) : res (list string) :=
  match ev, border b with
  | Some ev, _ => Ok (free_vars b ev)
  | None, [] => Ok []
  | None, _ :: _ => Err TypeError
  end.

(** mcmc.py:148-150: the burn-in. *)
Fixpoint burn (f : state * nat -> res (state * nat)) (n : nat) (acc : state * nat) : res (state * nat) :=
  match n with O => Ok acc | S n' => let* acc' := f acc in burn f n' acc' end.

(** mcmc.py:151-153: the successive contents of the yielded dict. *)
Fixpoint yields (f : state * nat -> res (state * nat)) (n : nat) (acc : state * nat) : res (list state) :=
  match n with
  | O => Ok []
  | S n' => let* acc' := f acc in let* l := yields f n' acc' in Ok (fst acc' :: l)
  end.

(** mcmc.py:117-153 [generate_markov_chain], read one by one as the states are
    yielded. *)
Definition generate_chain (t : transition) (burnIn : nat) (full : bool) (g : rng) (b : bn) (numSamples : nat)
    (init : state * nat) (ev : option state) : res (list state) :=
  let* vars := vars_to_change b ev in
  let f := step t full g b vars in
  let* acc := burn f burnIn init in yields f numSamples acc.

(** mcmc.py:56-84 [MCMC.marginals].  The chain is generated while [from_samples]
    runs; here all states are made first.  C73_streamed shows that this makes no
    difference (Stream.v).  [order] as in [get_sample]. *)
Definition mcmc_marginals (t : transition) (burnIn : nat) (full : bool) (numSamples : nat) (g : rng) (b : bn)
    (order : list string) (variables : list string) (ev : state) : res factor :=
  let* init := get_sample g 0 b order ev in
  let* vv := foldM (fun d v => let* n := get_node b v in Ok (dset v (dn_values n) d)) variables [] in
  let* chain := generate_chain t burnIn full g b numSamples init (Some ev) in
  from_samples chain vv.

(** The generator with object identities, for callers that keep the yielded dicts:
    [step] changes the dict in place and returns it (mcmc.py:188-193, 229-243), so
    all yielded references are the same.  [heap] holds the dict objects; [list]
    collects the references. *)
Fixpoint yield_refs (f : state * nat -> res (state * nat)) (n : nat) (r : nat) (heap : list state) (k : nat)
  : res (list nat * list state) :=
  match n with
  | O => Ok ([], heap)
  | S n' => let* (st, k') := f (nth r heap [], k) in
            let* (rs, heap') := yield_refs f n' r (list_set r st heap) k' in
            Ok (r :: rs, heap')
  end.

(** [list(generate_markov_chain(...))]: the contents of the collected dicts.
    mcmc.py:147 copies the initial state (object 1). *)
Definition listed_chain (t : transition) (burnIn : nat) (full : bool) (g : rng) (b : bn) (numSamples : nat)
    (init : state * nat) (ev : state) : res (list state) :=
  let f := step t full g b (free_vars b ev) in
  let* (st, k) := burn f burnIn init in
  let* (rs, heap) := yield_refs f numSamples 1 [fst init; st] k in
  Ok (map (fun r => nth r heap []) rs).
