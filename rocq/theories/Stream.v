(** MCMC.marginals with the order of events in the program: [from_samples] reads the generator, so
    every state is counted before the next one is made.  Sampling.v makes all states first. *)
From Verif Require Import Base NDArray Factor Exact Sampling.

(** factor.py:316-320: one sample is counted. *)
Definition count_sample (vv : dict (list string)) (a : ndarray) (s : state) : res ndarray :=
  let* idx := mapM (fun p => let* x := dget_err KeyError (fst p) s in py_index x (snd p)) vv in
  Ok (aset a idx (aget a idx + 1)%Qc).

(** mcmc.py:151-153 read by factor.py:316-320: a step, then the new state is counted. *)
Fixpoint counted (f : state * nat -> res (state * nat)) (vv : dict (list string)) (n : nat) (acc : state * nat) (a : ndarray)
  : res ndarray :=
  match n with
  | O => Ok a
  | S n' => let* acc' := f acc in let* a' := count_sample vv a (fst acc') in counted f vv n' acc' a'
  end.

(** mcmc.py:56-84 [MCMC.marginals].  The generator (mcmc.py:145-153) starts when [from_samples] asks for
    the first sample (factor.py:316), after the table of zeros is made (315). *)
Definition mcmc_streamed (t : transition) (burnIn : nat) (full : bool) (numSamples : nat) (g : rng) (b : bn)
    (order : list string) (variables : list string) (ev : state) : res factor :=
  let* init := get_sample g 0 b order ev in                                                               (* 75 *)
  let* vv := foldM (fun d v => let* n := get_node b v in Ok (dset v (dn_values n) d)) variables [] in      (* 78 *)
  let a0 := np_zeros (map (fun p => length (snd p)) vv) in                                                (* factor.py:309-315 *)
  let* vars := vars_to_change b (Some ev) in                                                              (* 145 *)
  let f := step t full g b vars in
  let* acc := burn f burnIn init in                                                                       (* 148-150 *)
  let* counts := counted f vv numSamples acc a0 in
  let total := asum counts in                                                                             (* factor.py:321 *)
  if qeqb total 0%Qc then Err NonFinite
  else Ok (mkF (amap (fun x => (x / total)%Qc) counts) (dkeys vv) vv).
