(** Property C91: sampling with a transition model of one's own. *)
From Coq Require Import Field.
From Verif Require Import Base NDArray Factor Exact Spec OrderSpec TreeSpec BaseFacts FactorProofs Checks Instances ExampleNets
  Sampling MCSpec MCFacts MCProof MCTop MCChain MCForward MCChecks MCMarginal LawSpec LawCount LawKernel LawOne LawChain LawPost
  SampleErrSpec SampleErrProof Stream StreamProof PropMCMC UserSampling UserSpec UserProof UserBalance UserMix.

(** ** The two classes of the package are such models, and Metropolis-Hastings is the default. *)
Theorem C91_own b g burnIn full N order vs ev t init evo : sampled_net b -> rng_ok g -> topological b order -> NoDup (dkeys ev) ->
  mcmc_marginals_with (Some (own t)) burnIn full N g b order vs ev = mcmc_marginals t burnIn full N g b order vs ev /\
  generate_chain_with (Some (own t)) burnIn full g b N init evo = generate_chain t burnIn full g b N init evo /\
  mcmc_marginals_with None burnIn full N g b order vs ev = mcmc_marginals MetropolisHastings burnIn full N g b order vs ev /\
  generate_chain_with None burnIn full g b N init evo = generate_chain MetropolisHastings burnIn full g b N init evo.
Proof.
  intros SN RG TO ND. split; [exact (streamed_same b g ev order SN RG TO ND t burnIn full N vs)|]. split; [reflexivity|].
  split; [exact (streamed_same b g ev order SN RG TO ND MetropolisHastings burnIn full N vs)|reflexivity].
Qed.

(** ** The abstract class itself cannot be used, unless nothing is asked of it. *)
Theorem C91_abstract b g burnIn full N order vs ev : sampled_net b -> rng_ok g -> topological b order -> NoDup (dkeys ev) -> legal_ev b ev ->
  incl vs (bnames b) -> 0 < burnIn + N -> mcmc_marginals_with (Some abstract_step) burnIn full N g b order vs ev = Err NotImplementedError.
Proof. intros SN RG TO ND LE IV P. exact (marginals_abstract b SN ev order TO ND LE g RG vs IV burnIn full N P). Qed.

(** ** With any model that leads from complete states keeping the evidence to such states, the result lists
    the relative frequencies in the states number burnIn+1 to burnIn+N of the chain that starts with a
    forward sample; the first exception of the model is the exception of the call. *)
Theorem C91_frequencies b g burnIn full N order vs ev s : sampled_net b -> rng_ok g -> topological b order -> NoDup (dkeys ev) -> legal_ev b ev ->
  incl vs (bnames b) -> N <> 0 -> minds b ev (s g b (unobserved b ev) full) ->
  exists init k, get_sample g 0 b order ev = Ok (init, k) /\ complete b init /\ keeps ev init /\
  ((exists e, after (s g b (unobserved b ev) full) (burnIn + N) (init, k) (Err e) /\
              mcmc_marginals_with (Some s) burnIn full N g b order vs ev = Err e) \/
   exists chain F, length chain = N /\
     (forall j st, nth_error chain j = Some st -> complete b st /\ keeps ev st /\
        exists k', after (s g b (unobserved b ev) full) (burnIn + S j) (init, k) (Ok (st, k'))) /\
     mcmc_marginals_with (Some s) burnIn full N g b order vs ev = Ok F /\
     reports b F vs (fun q => qnat (hits q chain) / qnat N)%Qc /\ qsum (data (pot F)) = 1%Qc).
Proof. intros SN RG TO ND LE IV NZ M. exact (marginals_with b SN ev order TO ND LE g RG vs IV (Some s) burnIn full N NZ M). Qed.

(** Nothing checks that a step keeps the evidence: frequencies in states that contradict it are reported
    all the same. *)
Theorem C91_evidence_refuted : exists b g order ev s F, sampled_net b /\ rng_ok g /\ topological b order /\ NoDup (dkeys ev) /\ legal_ev b ev /\
  mcmc_marginals_with (Some s) 0 true 1 g b order ["A"] ev = Ok F /\ ev = [("A", "t")] /\ potential_at F [("A", "t")] = 0%Qc /\
  posterior b (hard ev) [("A", "t")] = 1%Qc.
Proof.
  exists net, (flat (qq 1 2) 0), ["A"; "B"; "C"; "D"], [("A", "t")], (fun _ _ _ _ a => Ok (dset "A" "f" (fst a), snd a)). eexists.
  split; [exact net_sampled|]. split; [apply flat_ok; reflexivity|]. split; [exact net_topological|]. split; [apply nodup_s_spec; reflexivity|].
  split; [apply legal_evb_ok; reflexivity|]. split; [vm_compute; reflexivity|]. split; [reflexivity|]. split; qc.
Qed.

(** ** If the steps leave the posterior as it is, so do the chains: started from the posterior, every state
    is distributed as the posterior. *)
Theorem C91_stationary b ev N c s full burnIn n j q m : sampled_net b -> NoDup (dkeys ev) -> incl (dkeys ev) (bnames b) -> 0 < N ->
  mass b (hard ev) [] <> 0%Qc ->
  draws_only c (fun g => s g b (unobserved b ev) full) ->
  (forall g, rng_ok g -> minds b ev (s g b (unobserved b ev) full)) ->
  (forall g, rng_ok g -> never_stops b ev (s g b (unobserved b ev) full)) ->
  leaves_posterior N c b ev (fun g => s g b (unobserved b ev) full) ->
  j < n -> (burnIn + S j) * c <= m ->
  qsum (map (fun x => posterior b (hard ev) x *
                      chance N m (fun g => shows q j (generate_chain_with (Some s) burnIn full g b n (x, 0%nat) (Some ev))))%Qc (worlds b ev)) =
  posterior b (hard ev) q.
Proof.
  intros SN ND IN N0 MP DO MI NS LP J L.
  assert (E : forall g x, generate_chain_with (Some s) burnIn full g b n (x, 0%nat) (Some ev) =
    let* acc := burn (s g b (unobserved b ev) full) burnIn (x, 0%nat) in yields (s g b (unobserved b ev) full) n acc).
  { intros g x. unfold generate_chain_with. cbn [vars_to_change rbind sampler_model]. now rewrite (free_unobserved b ev). }
  etransitivity; [|exact (user_stationary b SN ev ND IN N N0 _ c DO MP MI NS burnIn n j q m LP J L)].
  apply qsum_map_ext. intros x _. f_equal. unfold chance. f_equal. f_equal. f_equal. apply filter_ext. intros l. now rewrite E.
Qed.

(** ** The package's own steps, alone or one after the other, meet these conditions. *)
Theorem C91_package b ev t full : sampled_net b -> NoDup (dkeys ev) -> incl (dkeys ev) (bnames b) -> full = true \/ unobserved b ev <> [] ->
  mass b (hard ev) [] <> 0%Qc ->
  let f := fun g => own t g b (unobserved b ev) full in
  draws_only (per_step t full (unobserved b ev)) f /\
  (forall g, rng_ok g -> minds b ev (f g) /\ never_stops b ev (f g)) /\
  exists D, 0 < D /\ forall N, 0 < N -> Nat.divide D N -> leaves_posterior N (per_step t full (unobserved b ev)) b ev f.
Proof. exact (package_fit b ev t full). Qed.

Theorem C91_sequence b ev N c d s s' : sampled_net b -> NoDup (dkeys ev) -> incl (dkeys ev) (bnames b) -> 0 < N -> mass b (hard ev) [] <> 0%Qc ->
  draws_only c s -> draws_only d s' ->
  (forall g, rng_ok g -> minds b ev (s g) /\ never_stops b ev (s g)) -> (forall g, rng_ok g -> minds b ev (s' g) /\ never_stops b ev (s' g)) ->
  leaves_posterior N c b ev s -> leaves_posterior N d b ev s' ->
  let f := fun g a => match s g a with Ok a' => s' g a' | Err e => Err e end in
  draws_only (c + d) f /\ (forall g, rng_ok g -> minds b ev (f g) /\ never_stops b ev (f g)) /\ leaves_posterior N (c + d) b ev f.
Proof. exact (sequence_fit b ev N c d s s'). Qed.

(** ** A draw may decide which of two models makes the step; it must not look at the state (C91_peeking_refuted). *)
Theorem C91_mixture b ev N c pick s s' : 0 < N -> draws_only c s -> draws_only c s' ->
  (forall g, rng_ok g -> minds b ev (s g) /\ never_stops b ev (s g)) -> (forall g, rng_ok g -> minds b ev (s' g) /\ never_stops b ev (s' g)) ->
  leaves_posterior N c b ev s -> leaves_posterior N c b ev s' ->
  let f := chosen pick s s' in
  draws_only (S c) f /\ (forall g, rng_ok g -> minds b ev (f g) /\ never_stops b ev (f g)) /\ leaves_posterior N (S c) b ev f.
Proof.
  intros N0 D D' M M' L L'. split; [exact (mix_draws N c pick s s' N0 D D')|]. split; [intros g G; exact (mix_minds pick s s' b ev g (M g G) (M' g G))|].
  exact (mix_leaves N c pick s s' N0 D D' b ev L L').
Qed.

(** ** Detailed balance is enough for a step to leave the posterior as it is. *)
Theorem C91_balanced b ev N c f : sampled_net b -> 0 < N -> within_worlds N c b ev f -> balanced N c b ev f -> leaves_posterior N c b ev f.
Proof. intros SN N0 WW. exact (balanced_leaves b SN ev N c N0 f WW). Qed.

(** A fair coin that is turned over in every step; with a biased coin this does not leave the posterior as it is. *)
Definition coin (p q : Qc) : bn := mkBN [mkN "Z" ["t"; "f"] [] [] (mkArr [2] [p; q])] ["Z"] [].
Definition turned : user_step := fun _ _ _ _ a => Ok (dset "Z" (if String.eqb (look (fst a) "Z") "t" then "f" else "t") (fst a), snd a).

Example C91_balanced_example : let b := coin (qq 1 2) (qq 1 2) in let f := fun g => turned g b ["Z"] true in
  sampled_net b /\ within_worlds 1 0 b [] f /\ balanced 1 0 b [] f /\ length (worlds b []) = 2.
Proof.
  cbv zeta. split; [|split; [|split; [|reflexivity]]].
  - constructor; [apply wf_bnb_ok; vm_compute; reflexivity|apply wf_graphb_ok; vm_compute; reflexivity| | |apply nonnegb_ok; vm_compute; reflexivity].
    + intros u v. cbn. split; [intros []|]. intros (n & [<-|[]] & _ & []).
    + constructor.
  - intros x l [<-|[<-|[]]] _; do 2 eexists; (split; [vm_compute; reflexivity|]); cbn; tauto.
  - intros x y [<-|[<-|[]]] [<-|[<-|[]]]; qc.
Qed.

Theorem C91_biased_refuted : exists b f, sampled_net b /\ within_worlds 1 0 b [] f /\ ~ leaves_posterior 1 0 b [] f.
Proof.
  exists (coin (qq 1 4) (qq 3 4)), (fun g => turned g (coin (qq 1 4) (qq 3 4)) ["Z"] true). split; [|split].
  - constructor; [apply wf_bnb_ok; vm_compute; reflexivity|apply wf_graphb_ok; vm_compute; reflexivity| | |apply nonnegb_ok; vm_compute; reflexivity].
    + intros u v. cbn. split; [intros []|]. intros (n & [<-|[]] & _ & []).
    + constructor.
  - intros x l [<-|[<-|[]]] _; do 2 eexists; (split; [vm_compute; reflexivity|]); cbn; tauto.
  - intros H. specialize (H (fun s => if String.eqb (look s "Z") "t" then 1%Qc else 0%Qc)). apply (f_equal this) in H. vm_compute in H. discriminate.
Qed.

(** ** Examples: a sweep of Gibbs sampling, then one change by Metropolis-Hastings. *)
Definition both : user_step := fun g b vars full a =>
  match own Gibbs g b vars true a with Ok a' => own MetropolisHastings g b vars false a' | Err e => Err e end.

Example C91_example : let ev := [("D", "t")] in let f := fun g => both g net (unobserved net ev) false in
  sampled_net net /\ NoDup (dkeys ev) /\ incl (dkeys ev) (bnames net) /\ legal_ev net ev /\ mass net (hard ev) [] <> 0%Qc /\ topological net ["A"; "B"; "C"; "D"] /\
  draws_only 6 f /\ (forall g, rng_ok g -> minds net ev (f g) /\ never_stops net ev (f g)) /\
  exists N, 0 < N /\ leaves_posterior N 6 net ev f.
Proof.
  cbv zeta. set (ev := [("D", "t")]). assert (ND : NoDup (dkeys ev)) by (apply nodup_s_spec; reflexivity).
  assert (IN : incl (dkeys ev) (bnames net)) by (apply inclb_ok; reflexivity).
  assert (MP : mass net (hard ev) [] <> 0%Qc) by (intros E; apply (f_equal this) in E; vm_compute in E; discriminate).
  assert (U : unobserved net ev <> []) by (vm_compute; discriminate).
  destruct (C91_package net ev Gibbs true net_sampled ND IN (or_introl eq_refl) MP) as (D1 & M1 & N1 & P1 & L1).
  destruct (C91_package net ev MetropolisHastings false net_sampled ND IN (or_intror U) MP) as (D2 & M2 & N2 & P2 & L2).
  assert (N0 : 0 < N1 * N2) by lia.
  destruct (C91_sequence net ev (N1 * N2) _ _ _ _ net_sampled ND IN N0 MP D1 D2 M1 M2 (L1 _ N0 (Nat.divide_factor_l _ _)) (L2 _ N0 (Nat.divide_factor_r _ _))) as (A & B & C).
  split; [exact net_sampled|]. split; [exact ND|]. split; [exact IN|]. split; [apply legal_evb_ok; reflexivity|]. split; [exact MP|]. split; [exact net_topological|].
  split; [exact A|]. split; [exact B|]. exists (N1 * N2). split; [exact N0|exact C].
Qed.

(** A sweep of Gibbs sampling with probability one half, otherwise one change by Metropolis-Hastings. *)
Example C91_mixture_example : let ev := [("D", "t")] in
  let f := chosen (fun u _ => qltb u (qq 1 2)) (fun g => own Gibbs g net (unobserved net ev) true) (fun g => own MetropolisHastings g net (unobserved net ev) false) in
  draws_only 4 f /\ (forall g, rng_ok g -> minds net ev (f g) /\ never_stops net ev (f g)) /\ exists N, 0 < N /\ leaves_posterior N 4 net ev f.
Proof.
  cbv zeta. set (ev := [("D", "t")]). assert (ND : NoDup (dkeys ev)) by (apply nodup_s_spec; reflexivity).
  assert (IN : incl (dkeys ev) (bnames net)) by (apply inclb_ok; reflexivity).
  assert (MP : mass net (hard ev) [] <> 0%Qc) by (intros E; apply (f_equal this) in E; vm_compute in E; discriminate).
  assert (U : unobserved net ev <> []) by (vm_compute; discriminate).
  destruct (C91_package net ev Gibbs true net_sampled ND IN (or_introl eq_refl) MP) as (D1 & M1 & N1 & P1 & L1).
  destruct (C91_package net ev MetropolisHastings false net_sampled ND IN (or_intror U) MP) as (D2 & M2 & N2 & P2 & L2).
  assert (N0 : 0 < N1 * N2) by lia.
  destruct (C91_mixture net ev (N1 * N2) 3 (fun u _ => qltb u (qq 1 2)) _ _ N0 D1 D2 M1 M2 (L1 _ N0 (Nat.divide_factor_l _ _)) (L2 _ N0 (Nat.divide_factor_r _ _))) as (A & B & C).
  split; [exact A|]. split; [exact B|]. exists (N1 * N2). split; [exact N0|exact C].
Qed.

(** A choice that looks at the state: stay if Z is t, turn the coin otherwise.  Both steps leave the posterior of a fair coin
    as it is, this choice does not. *)
Definition stayed : user_step := fun _ _ _ _ a => Ok a.
Theorem C91_peeking_refuted : exists b s s', sampled_net b /\ leaves_posterior 1 0 b [] s /\ leaves_posterior 1 0 b [] s' /\
  ~ leaves_posterior 1 0 b [] (fun g a => if String.eqb (look (fst a) "Z") "t" then s g a else s' g a).
Proof.
  set (b := coin (qq 1 2) (qq 1 2)). exists b, (fun g => stayed g b ["Z"] true), (fun g => turned g b ["Z"] true).
  split; [exact (proj1 C91_balanced_example)|]. split; [|split].
  - intros h. apply qsum_map_ext. intros x _. f_equal. unfold expectation. cbn [streams map qsum length worth stayed]. rewrite Qcplus_0_r. replace (qnat 1) with 1%Qc by (apply Qc_is_canon; reflexivity). field. discriminate.
  - apply (C91_balanced b [] 1 0); [exact (proj1 C91_balanced_example)|lia| |]; apply C91_balanced_example.
  - intros L. specialize (L (fun st => if String.eqb (look st "Z") "t" then 1%Qc else 0%Qc)). apply (f_equal this) in L. vm_compute in L. discriminate L.
Qed.

(** What such a call returns, what the abstract class does, and a step that raises an exception. *)
Example C91_calls_example : let g := flat (qq 1 2) 1 in let o := ["A"; "B"; "C"; "D"] in
  rng_ok g /\ incl ["B"] (bnames net) /\
  (exists F, mcmc_marginals_with (Some both) 2 false 5 g net o ["B"] [("D", "t")] = Ok F /\ vorder F = ["B"]) /\
  mcmc_marginals_with (Some abstract_step) 0 false 1 g net o ["B"] [("D", "t")] = Err NotImplementedError /\
  mcmc_marginals_with (Some abstract_step) 0 false 0 g net o ["B"] [("D", "t")] = Err NonFinite /\
  mcmc_marginals_with (Some (fun g b vars full a => if Nat.ltb (snd a) 9 then own Gibbs g b vars true a else Err RuntimeError))
    1 true 5 g net o ["B"] [("D", "t")] = Err RuntimeError.
Proof.
  cbv zeta. split; [apply flat_ok; reflexivity|]. split; [apply inclb_ok; reflexivity|]. split; [eexists; split; vm_compute; reflexivity|].
  split; [vm_compute; reflexivity|]. split; vm_compute; reflexivity.
Qed.

Print Assumptions C91_own.
Print Assumptions C91_abstract.
Print Assumptions C91_frequencies.
Print Assumptions C91_evidence_refuted.
Print Assumptions C91_stationary.
Print Assumptions C91_package.
Print Assumptions C91_sequence.
Print Assumptions C91_mixture.
Print Assumptions C91_peeking_refuted.
Print Assumptions C91_balanced.
Print Assumptions C91_biased_refuted.
