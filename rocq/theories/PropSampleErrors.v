(** C73: which exception sampling raises, and when.  Specification: SampleErrSpec.v. *)
From Verif Require Import Base NDArray Factor Exact Spec OrderSpec TreeSpec BaseFacts FactorSpec FactorProofs Checks Instances ExampleNets
  Sampling MCSpec MCFacts MCProof MCTop MCChain MCForward MCMarginal MCChecks PropMCMC SampleErrSpec SampleErrProof Stream StreamProof SampleErrTop.

(** ** get_sample.  Unknown names in the evidence are ignored; so are wrong values of variables whose children
    are all given.  Otherwise every variable gets a value, and the generator is called once for each variable
    that is not given. *)
Theorem C73_get_sample b g order k ev e : sampled_net b -> rng_ok g -> topological b order -> NoDup (dkeys ev) ->
  (get_sample g k b order ev = Err e <-> e = ValueError /\ exists n, undrawable b ev n).
Proof. exact (sample_raises b g order k ev e). Qed.

Theorem C73_get_sample_state b g order k ev : sampled_net b -> rng_ok g -> topological b order -> NoDup (dkeys ev) ->
  (forall n, ~ undrawable b ev n) -> exists st, get_sample g k b order ev = Ok (st, k + length (unobserved b ev)) /\ started b ev st.
Proof. intros SN RG TO ND. apply (sample_outcome b SN g RG ev order TO k ND). Qed.

(** ** generate_markov_chain, with both transition models: reading all states. *)
Theorem C73_chain b g t burnIn full N st k ev e : sampled_net b -> rng_ok g -> started b ev st ->
  (generate_chain t burnIn full g b N (st, k) (Some ev) = Err e <-> chain_fault t full g k (burnIn + N) b ev e).
Proof. exact (chain_raises b g t burnIn full N st k ev e). Qed.

(** Without evidence (the default argument). *)
Theorem C73_chain_default b g t burnIn full N st k e : sampled_net b ->
  (generate_chain t burnIn full g b N (st, k) None = Err e <->
   e = TypeError /\ bnames b <> [] \/ e = IndexError /\ bnames b = [] /\ full = false /\ 0 < burnIn + N).
Proof. exact (default_raises b g t burnIn full N st k e). Qed.

(** ** MCMC.marginals. *)
Theorem C73_marginals b g t burnIn full N order vs ev e : sampled_net b -> rng_ok g -> topological b order -> NoDup (dkeys ev) ->
  (mcmc_marginals t burnIn full N g b order vs ev = Err e <-> mcmc_fault t full g burnIn N b ev vs e).
Proof. exact (mcmc_raises b g t burnIn full N order vs ev e). Qed.

(** The program counts every state before it makes the next one; that makes no difference, not even to the exceptions. *)
Theorem C73_streamed b g t burnIn full N order vs ev : sampled_net b -> rng_ok g -> topological b order -> NoDup (dkeys ev) ->
  mcmc_streamed t burnIn full N g b order vs ev = mcmc_marginals t burnIn full N g b order vs ev.
Proof. intros SN RG TO ND. exact (streamed_same b g ev order SN RG TO ND t burnIn full N vs). Qed.

(** ** Examples *)
Example C73_sample_example : let g := flat (qq 1 2) 0 in
  sampled_net net /\ rng_ok g /\ topological net ["A"; "B"; "C"; "D"] /\
  (exists n, undrawable net [("A", "maybe"); ("B", "x")] n) /\
  (forall n, ~ undrawable net [("D", "maybe"); ("E", "t")] n) /\
  (forall n, ~ undrawable net [("A", "maybe"); ("B", "x"); ("C", "t")] n).
Proof.
  cbv zeta. assert (RG : rng_ok (flat (qq 1 2) 0)) by (apply flat_ok; reflexivity).
  assert (G : forall ev n, NoDup (dkeys ev) -> (exists r, get_sample (flat (qq 1 2) 0) 0 net ["A"; "B"; "C"; "D"] ev = Ok r) -> ~ undrawable net ev n).
  { intros ev n ND (r & E) U. pose proof (proj2 (C73_get_sample net _ _ 0 ev ValueError net_sampled RG net_topological ND) (conj eq_refl (ex_intro _ n U))). congruence. }
  split; [exact net_sampled|]. split; [exact RG|]. split; [exact net_topological|]. split.
  - exists nC. split; [cbn; tauto|]. split; [intros H; cbn in H; destruct H as [H|[H|[]]]; discriminate H|]. exists "A". split; [cbn; tauto|].
    split; [cbn; tauto|]. exists "maybe". split; [reflexivity|]. intros H. vm_compute in H. destruct H as [H|[H|[]]]; discriminate H.
  - split; intros n; (apply G; [apply nodup_s_spec; reflexivity|]); eexists; vm_compute; reflexivity.
Qed.

(** An observed value that no variable to be drawn depends on, but that the Markov chain trips over; with one
    variable per step only if it visits a neighbour. *)
Example C73_chain_example : let st := [("A", "t"); ("B", "x"); ("C", "t"); ("D", "maybe")] in let ev := [("D", "maybe")] in
  started net ev st /\ unobserved net ev = ["A"; "B"; "C"] /\ rng_ok (flat (qq 1 2) 0) /\ rng_ok (flat (qq 1 2) 2) /\
  chain_fault Gibbs true (flat (qq 1 2) 0) 0 2 net ev ValueError /\
  (forall e, ~ chain_fault Gibbs false (flat (qq 1 2) 0) 0 2 net ev e) /\
  chain_fault MetropolisHastings false (flat (qq 1 2) 2) 0 2 net ev ValueError /\
  chain_fault Gibbs false (flat (qq 1 2) 2) 0 1 net [("A", "t"); ("B", "x"); ("C", "t"); ("D", "maybe")] IndexError.
Proof.
  cbv zeta. assert (RG : forall c, rng_ok (flat (qq 1 2) c)) by (intros c; apply flat_ok; reflexivity).
  assert (ST : started net [("D", "maybe")] [("A", "t"); ("B", "x"); ("C", "t"); ("D", "maybe")]).
  { split; [apply keepsb_ok; reflexivity|]. intros v Hv. vm_compute in Hv. destruct Hv as [<-|[<-|[<-|[<-|[]]]]]; eexists; (split; [reflexivity|]); vm_compute; tauto. }
  split; [exact ST|]. split; [reflexivity|]. split; [apply RG|]. split; [apply RG|]. split.
  { apply (C73_chain net (flat (qq 1 2) 0) Gibbs 1 true 1 _ 0 _ ValueError net_sampled (RG 0) ST). vm_compute. reflexivity. }
  split.
  { intros e H. apply (C73_chain net (flat (qq 1 2) 0) Gibbs 1 false 1 _ 0 _ e net_sampled (RG 0) ST) in H. vm_compute in H. discriminate. }
  split.
  { apply (C73_chain net (flat (qq 1 2) 2) MetropolisHastings 1 false 1 _ 0 _ ValueError net_sampled (RG 2) ST). vm_compute. reflexivity. }
  apply F_nothing; [reflexivity|lia|]. apply inclb_ok. reflexivity.
Qed.

Example C73_marginals_example : let g := flat (qq 1 2) 0 in let order := ["A"; "B"; "C"; "D"] in
  let calls := [(Gibbs, true, 1, 1, ["A"], [("A", "maybe")], ValueError); (Gibbs, true, 1, 1, ["A"; "Nope"], [], PlainException);
    (MetropolisHastings, false, 0, 1, ["A"], [("A", "t"); ("B", "x"); ("C", "t"); ("D", "f")], IndexError);
    (MetropolisHastings, true, 0, 2, ["A"], [("D", "maybe")], ValueError);
    (Gibbs, false, 0, 2, ["D"], [("D", "maybe")], ValueError); (Gibbs, true, 7, 0, ["B"], [("D", "t")], NonFinite)] in
  sampled_net net /\ rng_ok g /\ topological net order /\
  Forall (fun c => match c with (t, full, burnIn, N, vs, ev, e) => NoDup (dkeys ev) /\ mcmc_fault t full g burnIn N net ev vs e end) calls /\
  forall e, ~ mcmc_fault Gibbs false g 0 2 net [("D", "maybe")] ["B"] e.
Proof.
  cbv zeta. assert (RG : rng_ok (flat (qq 1 2) 0)) by (apply flat_ok; reflexivity). split; [exact net_sampled|]. split; [exact RG|]. split; [exact net_topological|].
  split.
  - repeat (apply Forall_cons; [match goal with |- NoDup ?l /\ _ => assert (ND : NoDup l) by (apply nodup_s_spec; reflexivity) end; split; [exact ND|];
      apply (C73_marginals net _ _ _ _ _ _ _ _ _ net_sampled RG net_topological ND); vm_compute; reflexivity|]). apply Forall_nil.
  - intros e H. apply (C73_marginals net _ _ _ _ _ _ _ _ _ net_sampled RG net_topological) in H; [vm_compute in H; discriminate|apply nodup_s_spec; reflexivity].
Qed.

Print Assumptions C73_get_sample.
Print Assumptions C73_get_sample_state.
Print Assumptions C73_chain.
Print Assumptions C73_chain_default.
Example C73_streamed_example : let g := flat (qq 1 2) 0 in
  sampled_net net /\ rng_ok g /\ topological net ["A"; "B"; "C"; "D"] /\
  mcmc_streamed Gibbs 1 true 3 g net ["A"; "B"; "C"; "D"] ["D"] [("D", "maybe")] = Err ValueError /\
  mcmc_streamed Gibbs 1 true 0 g net ["A"; "B"; "C"; "D"] ["D"] [] = Err NonFinite /\
  exists f, mcmc_streamed MetropolisHastings 1 false 3 g net ["A"; "B"; "C"; "D"] ["D"] [("A", "t")] = Ok f /\ vorder f = ["D"].
Proof.
  cbv zeta. split; [exact net_sampled|]. split; [apply flat_ok; reflexivity|]. split; [exact net_topological|]. split; [vm_compute; reflexivity|].
  split; [vm_compute; reflexivity|]. eexists. split; vm_compute; reflexivity.
Qed.

Print Assumptions C73_streamed.
Print Assumptions C73_marginals.
