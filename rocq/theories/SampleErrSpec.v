(** What can go wrong with sampling, and which exception says so. *)
From Verif Require Import Base Factor Exact Spec OrderSpec TreeSpec Sampling MCSpec.

(** A variable is given a value that it does not have. *)
Definition wrong_value (b : bn) (st : state) (v : string) : Prop :=
  In v (bnames b) /\ exists x, dget v st = Some x /\ ~ In x (values_of b v).

(** A variable has to be drawn, but a parent of it is given a value that does not exist. *)
Definition undrawable (b : bn) (ev : state) (n : dnode) : Prop :=
  In n (bnodes b) /\ ~ In (dn_name n) (dkeys ev) /\ exists p, In p (map fst (dn_parents n)) /\ wrong_value b ev p.

(** A variable shares a table with one that is given a value that does not exist. *)
Definition blocked (b : bn) (ev : state) (v : string) : Prop :=
  exists u, interacts b v u /\ wrong_value b ev u.

(** Every variable has a value; the variables that are not observed have one of their values. *)
Definition started (b : bn) (ev st : state) : Prop :=
  keeps ev st /\ forall v, In v (bnames b) -> exists x, dget v st = Some x /\ (In v (dkeys ev) \/ In x (values_of b v)).

(** The variables to change, in the order of the graph. *)
Definition unobserved (b : bn) (ev : state) : list string := filter (fun v => negb (mem v (dkeys ev))) (border b).

(** Calls of the random generator in one step that changes one variable. *)
Definition calls_per_step (t : transition) : nat := match t with Gibbs => 2 | MetropolisHastings => 3 end.

(** [v] is changed in the first [n] steps; [k] is the number of the first call of the generator. *)
Definition visited (t : transition) (full : bool) (g : rng) (k : nat) (vars : list string) (n : nat) (v : string) : Prop :=
  if full then 0 < n /\ In v vars
  else exists i, i < n /\ nth_error vars (Nat.modulo (choose g (k + i * calls_per_step t)) (length vars)) = Some v.

(** The generator of states. *)
Inductive chain_fault (t : transition) (full : bool) (g : rng) (k n : nat) (b : bn) (ev : state) : exc -> Prop :=
| F_nothing : full = false -> 0 < n -> incl (bnames b) (dkeys ev) -> chain_fault t full g k n b ev IndexError
| F_step v : visited t full g k (unobserved b ev) n v -> blocked b ev v -> chain_fault t full g k n b ev ValueError.

(** MCMC.marginals: drawing the first state, looking up the variables asked for, the chain, counting. *)
Inductive mcmc_fault (t : transition) (full : bool) (g : rng) (burnIn N : nat) (b : bn) (ev : state) (vs : list string) : exc -> Prop :=
| M_draw n : undrawable b ev n -> mcmc_fault t full g burnIn N b ev vs ValueError
| M_unknown v : (forall n, ~ undrawable b ev n) -> In v vs -> ~ In v (bnames b) -> mcmc_fault t full g burnIn N b ev vs PlainException
| M_chain x : (forall n, ~ undrawable b ev n) -> incl vs (bnames b) ->
    chain_fault t full g (length (unobserved b ev)) (burnIn + N) b ev x -> mcmc_fault t full g burnIn N b ev vs x
| M_count v : (forall n, ~ undrawable b ev n) -> incl vs (bnames b) ->
    (forall x, ~ chain_fault t full g (length (unobserved b ev)) (burnIn + N) b ev x) ->
    0 < N -> In v vs -> wrong_value b ev v -> mcmc_fault t full g burnIn N b ev vs ValueError
| M_empty : (forall n, ~ undrawable b ev n) -> incl vs (bnames b) ->
    (forall x, ~ chain_fault t full g (length (unobserved b ev)) (burnIn + N) b ev x) ->
    N = 0 -> mcmc_fault t full g burnIn N b ev vs NonFinite.
