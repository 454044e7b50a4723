(** Sampling in rounded arithmetic: the functions of Sampling.v with the operations of
    Rounded.v.  The random numbers are the same; the probabilities are multiplied,
    added and divided in rounded arithmetic. *)
From Verif Require Import Base NDArray Factor Exact Sampling Rounded.

Section Rounded.
Context {RD : Rounding} {AD : Adding}.

(** nodes.py:351-390 [sample_value], as Sampling.v has it: [NonFinite] where Python
    returns None. *)
Definition rdraw_value (g : rng) (k : nat) (n : dnode) (st : state) (children : list dnode) (forward : bool) : res (string * nat) :=
  let* o := rsample_value g k n st children forward in
  match o with Some x => Ok (x, S k) | None => Err NonFinite end.

(** networks.py:160-170 [get_sample], one variable. *)
Definition rsample_one (g : rng) (b : bn) (ev : state) (acc : state * nat) (v : string) : res (state * nat) :=
  if dmem v ev then Ok acc
  else let* n := get_node b v in
       let* cs := get_children b v in
       let* (x, k) := rdraw_value g (snd acc) n (fst acc) cs true in
       Ok (dset v x (fst acc), k).

(** networks.py:160-170 [get_sample]. *)
Definition rget_sample (g : rng) (k : nat) (b : bn) (order : list string) (ev : state) : res (state * nat) :=
  foldM (rsample_one g b ev) order (fold_left (fun d p => dset (fst p) (snd p) d) ev [], k).

(** mcmc.py:165-193 [GibbsTransition.step], one variable. *)
Definition rgibbs_one (g : rng) (b : bn) (acc : state * nat) (v : string) : res (state * nat) :=
  let* n := get_node b v in
  let* cs := get_children b v in
  let* (x, k) := rdraw_value g (snd acc) n (fst acc) cs false in
  Ok (dset v x (fst acc), k).

(** mcmc.py:227 and 238: [min(1.0, proposedProb/currentProb)], see [accept_prob]. *)
Definition raccept (proposed current : Qc) : Qc :=
  if qeqb current 0%Qc then 1%Qc
  else let a := rnd (proposed / current)%Qc in if qltb a 1%Qc then a else 1%Qc.

(** mcmc.py:198-243 [MetropolisHastingsTransition.step], one variable (220-229,
    231-241). *)
Definition rmh_one (g : rng) (b : bn) (acc : state * nat) (v : string) : res (state * nat) :=
  let* cur := dget_err KeyError v (fst acc) in
  let* n := get_node b v in
  let* (y, k) := choice g (snd acc) (dn_values n) in
  let* cs := get_children b v in
  let* proposed := rmarkov n y cs (dset v y (fst acc)) false in
  let* current := rmarkov n cur cs (fst acc) false in
  Ok (if qleb (unif g k) (raccept proposed current) then dset v y (fst acc) else fst acc, S k).

(** The loop bodies mcmc.py:188, 191 and 221-229, 232-241. *)
Definition rchange_one (t : transition) := match t with Gibbs => rgibbs_one | MetropolisHastings => rmh_one end.

(** [step] of both transition models.  mcmc.py:165-193, 198-243. *)
Definition rstep (t : transition) (full : bool) (g : rng) (b : bn) (vars : list string) (acc : state * nat) : res (state * nat) :=
  if full then foldM (rchange_one t g b) vars acc
  else let* (v, k) := choice g (snd acc) vars in rchange_one t g b (fst acc, k) v.

(** mcmc.py:117-153 [generate_markov_chain]. *)
Definition rgenerate_chain (t : transition) (burnIn : nat) (full : bool) (g : rng) (b : bn) (numSamples : nat)
    (init : state * nat) (ev : option state) : res (list state) :=
  let* vars := vars_to_change b ev in
  let f := rstep t full g b vars in
  let* acc := burn f burnIn init in yields f numSamples acc.

(** factor.py:282-322 [from_samples]. *)
Definition rfrom_samples (samples : list (dict string)) (variableValues : dict (list string)) : res factor :=
  let order := dkeys variableValues in
  let shp := map (fun p => length (snd p)) variableValues in
  let* counts := foldM (fun a s =>
      let* idx := mapM (fun p => let* x := dget_err KeyError (fst p) s in
                                 py_index x (snd p)) variableValues in
      Ok (aset a idx (rnd (aget a idx + 1))%Qc)) samples (np_zeros shp) in
  let total := rsum [] (data counts) in
  if qeqb total 0%Qc then Err NonFinite
  else Ok (mkF (amap (fun x => rnd (x / total)%Qc) counts) order variableValues).

(** mcmc.py:56-84 [MCMC.marginals]; all states are made first, as in [mcmc_marginals]. *)
Definition rmcmc_marginals (t : transition) (burnIn : nat) (full : bool) (numSamples : nat) (g : rng) (b : bn)
    (order : list string) (variables : list string) (ev : state) : res factor :=
  let* init := rget_sample g 0 b order ev in
  let* vv := foldM (fun d v => let* n := get_node b v in Ok (dset v (dn_values n) d)) variables [] in
  let* chain := rgenerate_chain t burnIn full g b numSamples init (Some ev) in
  rfrom_samples chain vv.
End Rounded.
