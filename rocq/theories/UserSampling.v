(** Model of sampling with a transition model of the user's own: primo2/inference/mcmc.py
    leaves the class open (TransitionModel, mcmc.py:155-161,
    "Should be overwritten by inheriting class"). *)
From Verif Require Import Base NDArray Factor Exact Sampling Stream.

(** [step] of a class derived from TransitionModel, with the arguments of
    mcmc.py:149 and 152: the variables to change, the network, fullChange and the
    current state (with the counter of calls of the random module).  Simplified: the
    nodes are given by their names, and a [step] does not change the network, the
    list of variables, or anything that outlives the call. *)
Definition user_step := rng -> bn -> list string -> bool -> state * nat -> res (state * nat).

(** mcmc.py:160-161 [TransitionModel.step]. *)
Definition abstract_step : user_step := fun _ _ _ _ _ => Err NotImplementedError.

(** The two classes of the package as such models.  mcmc.py:163-243. *)
Definition own (t : transition) : user_step := fun g b vars full acc => step t full g b vars acc.

(** mcmc.py:110-115: the model the sampler uses.  Simplified: an object of the class
    counts as true (no [__bool__] or [__len__]). *)
Definition sampler_model (m : option user_step) : user_step :=
  match m with None => own MetropolisHastings | Some s => s end.

(** mcmc.py:117-153 [generate_markov_chain], read one by one as the states are yielded. *)
Definition generate_chain_with (m : option user_step) (burnIn : nat) (full : bool) (g : rng) (b : bn) (numSamples : nat)
    (init : state * nat) (ev : option state) : res (list state) :=
  let* vars := vars_to_change b ev in
  let f := sampler_model m g b vars full in
  let* acc := burn f burnIn init in yields f numSamples acc.

(** mcmc.py:56-84 [MCMC.marginals], with the order of events in the program (Stream.v): a state is
    counted (factor.py:316-320) before the next one is made. *)
Definition mcmc_marginals_with (m : option user_step) (burnIn : nat) (full : bool) (numSamples : nat) (g : rng) (b : bn)
    (order : list string) (variables : list string) (ev : state) : res factor :=
  let* init := get_sample g 0 b order ev in                                                               (* 75 *)
  let* vv := foldM (fun d v => let* n := get_node b v in Ok (dset v (dn_values n) d)) variables [] in      (* 78 *)
  let a0 := np_zeros (map (fun p => length (snd p)) vv) in                                                (* factor.py:309-315 *)
  let* vars := vars_to_change b (Some ev) in                                                              (* 145 *)
  let f := sampler_model m g b vars full in
  let* acc := burn f burnIn init in                                                                       (* 148-150 *)
  let* counts := counted f vv numSamples acc a0 in                                                        (* 151-153 *)
  let total := asum counts in                                                                             (* factor.py:321 *)
  if qeqb total 0%Qc then Err NonFinite
  else Ok (mkF (amap (fun x => (x / total)%Qc) counts) (dkeys vv) vv).
