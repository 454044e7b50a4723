(** Sampling in an arithmetic of limited range: the functions of RoundedSample.v with the
    rounding as an argument.  What happens to results that are too small or too large is
    left open, as in Ranged.v (0, for doubles that underflow; infinities are not
    modelled). *)
From Verif Require Import Base NDArray Factor Exact Sampling Rounded Ranged.

Section Ranged.
Context {AD : Adding}.
Variable r : Qc -> Qc.

(** nodes.py:317-349 [get_markov_prob]. *)
Definition markov_with (n : dnode) (x : string) (children : list dnode) (st : state) (forward : bool) : res Qc :=
  let* p := sp n x st in
  if forward then Ok p
  else foldM (fun p c => let* y := dget_err KeyError (dn_name c) st in
                         let* q := sp c y st in Ok (r (p * q))%Qc) children p.

(** nodes.py:384: [sum(weights)]. *)
Definition total_with (ws : list Qc) : Qc := fold_left (fun s w => r (s + w)%Qc) ws 0%Qc.

(** nodes.py:385-390, the roulette wheel. *)
Fixpoint roulette_with (values : list string) (ws : list Qc) (s u : Qc) : option string :=
  match values, ws with
  | x :: values', w :: ws' => let s' := r (s + w)%Qc in if qleb u s' then Some x else roulette_with values' ws' s' u
  | _, _ => None
  end.

(** nodes.py:383-390: the whole draw for the random number [u]. *)
Definition draw_with (values : list string) (ws : list Qc) (u : Qc) : option string :=
  roulette_with values ws 0%Qc (r (u * total_with ws)%Qc).

(** nodes.py:351-390 [sample_value]; [NonFinite] where Python returns None. *)
Definition draw_value_with (g : rng) (k : nat) (n : dnode) (st : state) (children : list dnode) (forward : bool) : res (string * nat) :=
  let* ws := mapM (fun x => markov_with n x children (dset (dn_name n) x st) forward) (dn_values n) in
  match draw_with (dn_values n) ws (unif g k) with Some x => Ok (x, S k) | None => Err NonFinite end.

(** networks.py:160-170 [get_sample], one variable. *)
Definition sample_one_with (g : rng) (b : bn) (ev : state) (acc : state * nat) (v : string) : res (state * nat) :=
  if dmem v ev then Ok acc
  else let* n := get_node b v in
       let* cs := get_children b v in
       let* (x, k) := draw_value_with g (snd acc) n (fst acc) cs true in
       Ok (dset v x (fst acc), k).

(** networks.py:160-170 [get_sample]. *)
Definition get_sample_with (g : rng) (k : nat) (b : bn) (order : list string) (ev : state) : res (state * nat) :=
  foldM (sample_one_with g b ev) order (fold_left (fun d p => dset (fst p) (snd p) d) ev [], k).

(** mcmc.py:165-193 [GibbsTransition.step], one variable. *)
Definition gibbs_one_with (g : rng) (b : bn) (acc : state * nat) (v : string) : res (state * nat) :=
  let* n := get_node b v in
  let* cs := get_children b v in
  let* (x, k) := draw_value_with g (snd acc) n (fst acc) cs false in
  Ok (dset v x (fst acc), k).

(** mcmc.py:227 and 238: [min(1.0, proposedProb/currentProb)]. *)
Definition accept_with (proposed current : Qc) : Qc :=
  if qeqb current 0%Qc then 1%Qc
  else let a := r (proposed / current)%Qc in if qltb a 1%Qc then a else 1%Qc.

(** mcmc.py:198-243 [MetropolisHastingsTransition.step], one variable. *)
Definition mh_one_with (g : rng) (b : bn) (acc : state * nat) (v : string) : res (state * nat) :=
  let* cur := dget_err KeyError v (fst acc) in
  let* n := get_node b v in
  let* (y, k) := choice g (snd acc) (dn_values n) in
  let* cs := get_children b v in
  let* proposed := markov_with n y cs (dset v y (fst acc)) false in
  let* current := markov_with n cur cs (fst acc) false in
  Ok (if qleb (unif g k) (accept_with proposed current) then dset v y (fst acc) else fst acc, S k).

(** The loop bodies mcmc.py:188, 191 and 221-229, 232-241. *)
Definition change_one_with (t : transition) := match t with Gibbs => gibbs_one_with | MetropolisHastings => mh_one_with end.

(** [step] of both transition models.  mcmc.py:165-193, 198-243. *)
Definition step_with (t : transition) (full : bool) (g : rng) (b : bn) (vars : list string) (acc : state * nat) : res (state * nat) :=
  if full then foldM (change_one_with t g b) vars acc
  else let* (v, k) := choice g (snd acc) vars in change_one_with t g b (fst acc, k) v.

(** mcmc.py:117-153 [generate_markov_chain]. *)
Definition chain_with (t : transition) (burnIn : nat) (full : bool) (g : rng) (b : bn) (numSamples : nat)
    (init : state * nat) (ev : option state) : res (list state) :=
  let* vars := vars_to_change b ev in
  let f := step_with t full g b vars in
  let* acc := burn f burnIn init in yields f numSamples acc.

(** factor.py:282-322 [from_samples]. *)
Definition from_samples_with (samples : list (dict string)) (variableValues : dict (list string)) : res factor :=
  let order := dkeys variableValues in
  let shp := map (fun p => length (snd p)) variableValues in
  let* counts := foldM (fun a s =>
      let* idx := mapM (fun p => let* x := dget_err KeyError (fst p) s in
                                 py_index x (snd p)) variableValues in
      Ok (aset a idx (r (aget a idx + 1))%Qc)) samples (np_zeros shp) in
  let total := sum_with r [] (data counts) in
  if qeqb total 0%Qc then Err NonFinite
  else Ok (mkF (amap (fun x => r (x / total)%Qc) counts) order variableValues).

(** mcmc.py:56-84 [MCMC.marginals]; all states are made first, as in [mcmc_marginals]. *)
Definition marginals_with (t : transition) (burnIn : nat) (full : bool) (numSamples : nat) (g : rng) (b : bn)
    (order : list string) (variables : list string) (ev : state) : res factor :=
  let* init := get_sample_with g 0 b order ev in
  let* vv := foldM (fun d v => let* n := get_node b v in Ok (dset v (dn_values n) d)) variables [] in
  let* chain := chain_with t burnIn full g b numSamples init (Some ev) in
  from_samples_with chain vv.
End Ranged.

Section Limited.
Context {RD : Rounding} {LM : Limits} {AD : Adding}.
(** networks.py:160-170 [get_sample] in arithmetic of limited range. *)
Definition limited_sample := get_sample_with lim.
(** mcmc.py:117-153 [generate_markov_chain] in arithmetic of limited range. *)
Definition limited_chain := chain_with lim.
(** mcmc.py:56-84 [MCMC.marginals] in arithmetic of limited range. *)
Definition limited_marginals := marginals_with lim.
End Limited.
