(** Model of sampling with a transition model that keeps a state of its own (attributes of the object)
    between the steps and between the calls, primo2/inference/mcmc.py. *)
From Verif Require Import Base NDArray Factor Exact Sampling Stream UserSampling.

(** [step] of a class derived from TransitionModel (mcmc.py:155-161), with the attributes of the object before and
    after the call; they stay if the step raises an exception.  Simplified as [user_step]: a step changes
    neither the network nor the list of variables. *)
Definition mem_step (M : Type) := rng -> bn -> list string -> bool -> M -> state * nat -> M * res (state * nat).

Section Memory.
Context {M : Type}.
Variable f : M -> state * nat -> M * res (state * nat).

(** mcmc.py:148-150: the steps of the burn-in. *)
Fixpoint burn_mem (n : nat) (m : M) (acc : state * nat) : M * res (state * nat) :=
  match n with
  | O => (m, Ok acc)
  | S n' => match f m acc with (m', Ok acc') => burn_mem n' m' acc' | (m', Err e) => (m', Err e) end
  end.

(** mcmc.py:151-153 and factor.py:316-320: a step, its state is counted, the next step. *)
Fixpoint counted_mem (vv : dict (list string)) (n : nat) (m : M) (acc : state * nat) (a : ndarray) : M * res ndarray :=
  match n with
  | O => (m, Ok a)
  | S n' => match f m acc with
            | (m', Ok acc') => match count_sample vv a (fst acc') with
                               | Ok a' => counted_mem vv n' m' acc' a'
                               | Err e => (m', Err e)
                               end
            | (m', Err e) => (m', Err e)
            end
  end.
End Memory.

(** mcmc.py:56-84 [MCMC.marginals], with the attributes of the transition model before and after the call. *)
Definition mcmc_marginals_mem {M} (s : mem_step M) (burnIn : nat) (full : bool) (numSamples : nat) (g : rng) (b : bn)
    (order : list string) (variables : list string) (ev : state) (m : M) : M * res factor :=
  match (let* init := get_sample g 0 b order ev in                                                             (* 75 *)
         let* vv := foldM (fun d v => let* n := get_node b v in Ok (dset v (dn_values n) d)) variables [] in    (* 78 *)
         let* vars := vars_to_change b (Some ev) in                                                            (* 145 *)
         Ok (init, vv, vars)) with
  | Err e => (m, Err e)
  | Ok (init, vv, vars) =>
      match burn_mem (s g b vars full) burnIn m init with                                                      (* 148-150 *)
      | (m1, Err e) => (m1, Err e)
      | (m1, Ok acc) =>
          match counted_mem (s g b vars full) vv numSamples m1 acc (np_zeros (map (fun p => length (snd p)) vv)) with
          | (m2, Err e) => (m2, Err e)
          | (m2, Ok counts) =>                                                                                 (* factor.py:321 *)
              (m2, let total := asum counts in
                   if qeqb total 0%Qc then Err NonFinite
                   else Ok (mkF (amap (fun x => (x / total)%Qc) counts) (dkeys vv) vv))
          end
      end
  end.

(** mcmc.py:52-54 and 56-84: several calls with the same MCMC object, which keeps its sampler and transition model, one after
    the other (each with its own random draws, query and evidence). *)
Fixpoint mcmc_calls {M} (s : mem_step M) (burnIn : nat) (full : bool) (numSamples : nat) (b : bn) (order : list string)
    (cs : list (rng * list string * state)) (m : M) : M * list (res factor) :=
  match cs with
  | [] => (m, [])
  | (g, vs, ev) :: cs' => let (m', r) := mcmc_marginals_mem s burnIn full numSamples g b order vs ev m in
                          let (m'', rs) := mcmc_calls s burnIn full numSamples b order cs' m' in (m'', r :: rs)
  end.
