(** Property C91, continued: transition models of one's own that can reach every state in one step. *)
From Coq Require Import Field.
From Verif Require Import Base NDArray Factor Exact Spec OrderSpec TreeSpec BaseFacts FactorProofs Checks Instances ExampleNets
  Sampling MCSpec MCFacts MCProof MCTop MCChain MCForward MCChecks MCMarginal LawSpec LawCount LawKernel LawOne LawChain LawPost LawForward LawMCMC
  SampleErrSpec SampleErrProof Stream StreamProof PropMCMC UserSampling UserSpec UserProof UserBalance UserEstimate UserLimit PropUser.

(** ** If the steps leave the posterior as it is and lead from each state that agrees with the evidence to each such state with a
    chance of at least e, the chains approach the posterior from every such state. *)
Theorem C91_limit_chain b ev N c s full e burnIn n j q m x : sampled_net b -> NoDup (dkeys ev) -> incl (dkeys ev) (bnames b) ->
  (0 < mass b (hard ev) [])%Qc -> 0 < N ->
  let f := fun g => s g b (unobserved b ev) full in
  draws_only c f -> (forall g, rng_ok g -> minds b ev (f g) /\ never_stops b ev (f g)) -> within_worlds N c b ev f -> leaves_posterior N c b ev f ->
  spreads N c b ev f e -> In x (worlds b ev) -> j < n -> (burnIn + S j) * c <= m ->
  let p := chance N m (fun g => shows q j (generate_chain_with (Some s) burnIn full g b n (x, 0%nat) (Some ev))) in
  let d := power (1 - e)%Qc (burnIn + S j) in
  (posterior b (hard ev) q - d <= p)%Qc /\ (p <= posterior b (hard ev) q + d)%Qc.
Proof.
  intros SN ND IN MP N0 f DO MN WW LP SP X J M p d.
  assert (E : forall g, generate_chain_with (Some s) burnIn full g b n (x, 0%nat) (Some ev) = let* acc := burn (f g) burnIn (x, 0%nat) in yields (f g) n acc).
  { intros g. unfold generate_chain_with. cbn [vars_to_change rbind sampler_model]. now rewrite (free_unobserved b ev). }
  assert (P : p = chance N m (fun g => shows q j (let* acc := burn (f g) burnIn (x, 0%nat) in yields (f g) n acc))).
  { unfold p, chance. f_equal. f_equal. f_equal. apply filter_ext. intros l. now rewrite E. }
  rewrite P. exact (user_chain_near b SN ev ND IN MP N N0 s full c DO (fun g G => proj1 (MN g G)) (fun g G => proj2 (MN g G)) WW LP e SP burnIn n j q m x X J M).
Qed.

(** ** So do the means of the estimates, wherever the evidence is. *)
Theorem C91_limit_estimates b ev order vs s full : sampled_net b -> stochastic_bn b -> topological b order -> NoDup (dkeys ev) -> legal_ev b ev ->
  incl (dkeys ev) (bnames b) -> (0 < mass b (hard ev) [])%Qc -> incl vs (bnames b) ->
  let f := fun g => s g b (unobserved b ev) full in
  exists D, 0 < D /\ forall N c e burnIn n q m, 0 < N -> Nat.divide D N ->
    draws_only c f -> (forall g, rng_ok g -> minds b ev (f g) /\ never_stops b ev (f g)) -> within_worlds N c b ev f -> leaves_posterior N c b ev f ->
    reads_values b f -> (0 <= e)%Qc -> (e <= 1)%Qc -> spreads N c b ev f e ->
    0 < n -> is_inst b vs q -> length (filter (fun v => negb (dmem v ev)) order) + (burnIn + n) * c <= m ->
    let p := expectation N m (fun g => estimate q (mcmc_marginals_with (Some s) burnIn full n g b order vs ev)) in
    let d := power (1 - e)%Qc (S burnIn) in
    (posterior b (hard ev) q - d <= p)%Qc /\ (p <= posterior b (hard ev) q + d)%Qc.
Proof.
  intros SN ST TO ND LE IN MP VS f. destruct (fwd_some b SN ev) as (D & P & H). exists D. split; [exact P|].
  intros N c e burnIn n q m N0 DN DO MN WW LP RV E0 E1 SP n0 Q M.
  exact (user_estimate_near b SN ev ND IN MP N N0 s full c DO (fun g G => proj1 (MN g G)) (fun g G => proj2 (MN g G)) WW LP e E0 SP ST order TO LE (H N DN) RV E1 vs VS burnIn n q m n0 Q M).
Qed.

(** A fair coin that is turned over with a chance of one quarter. *)
Definition sometimes : user_step := fun g b vars full a =>
  if qltb (unif g (snd a)) (qq 1 2) && Nat.eqb (choose g (snd a)) 0
  then match turned g b vars full a with Ok (st, k) => Ok (st, S k) | Err e => Err e end else Ok (fst a, S (snd a)).

Example C91_limit_example : let b := coin (qq 1 2) (qq 1 2) in let f := fun g => sometimes g b (unobserved b []) true in
  sampled_net b /\ stochastic_bn b /\ topological b ["Z"] /\ legal_ev b [] /\ (0 < mass b (hard []) [])%Qc /\
  draws_only 1 f /\ (forall g, minds b [] (f g) /\ never_stops b [] (f g)) /\ within_worlds 2 1 b [] f /\ leaves_posterior 2 1 b [] f /\
  reads_values b f /\ spreads 2 1 b [] f (qq 1 4) /\
  posterior b (hard []) [("Z", "t")] = qq 1 2 /\
  chance 2 2 (fun g => shows [("Z", "t")] 1 (generate_chain_with (Some sometimes) 0 true g b 2 ([("Z", "t")], 0%nat) (Some []))) = qq 5 8.
Proof.
  cbv zeta. destruct C91_balanced_example as (SN & _). set (b := coin (qq 1 2) (qq 1 2)) in *.
  assert (WF : wf_bn b) by exact (sn_bn _ SN).
  assert (WW : within_worlds 2 1 b [] (fun g => sometimes g b (unobserved b []) true)).
  { intros x l X L. cbv in L. destruct X as [<-|[<-|[]]]; destruct L as [<-|[<-|[<-|[<-|[]]]]]; do 2 eexists; (split; [vm_compute; reflexivity|]); cbn; tauto. }
  split; [exact SN|]. split; [exact (stochasticb_ok b WF eq_refl)|]. split; [apply topological_ok; [exact WF| |]; reflexivity|].
  split; [apply legal_evb_ok; reflexivity|]. split; [vm_compute; reflexivity|]. split; [|split; [|split; [exact WW|split; [|split; [|split; [|split]]]]]].
  - intros g g' st k k' H. specialize (H 0 Nat.lt_0_1). rewrite !Nat.add_0_r in H. destruct H as [H1 H2]. unfold sometimes. cbn [fst snd]. rewrite H1, H2.
    destruct (_ && _); cbn [turned fst snd]; repeat split; lia.
  - intros g. split.
    + intros st k st' k' C K E. split; [|intros v a H; discriminate H]. unfold sometimes in E. cbn [fst snd turned] in E. destruct (_ && _); [|inversion E; now subst].
      assert (Z : st' = dset "Z" (if String.eqb (look st "Z") "t" then "f" else "t") st) by congruence. rewrite Z. apply complete_dset; [exact C|].
      destruct (String.eqb _ _); vm_compute; tauto.
    + intros st k e _ _. unfold sometimes. cbn [fst snd turned]. destruct (_ && _); discriminate.
  - apply (C91_balanced b [] 2 1); [exact SN|lia|exact WW|]. intros x y [<-|[<-|[]]] [<-|[<-|[]]]; qc.
  - intros g x y k S. unfold sometimes. cbn [fst snd turned]. destruct (_ && _); [|now split]. split; [|reflexivity].
    assert (L : look x "Z" = look y "Z") by (unfold look; rewrite (S "Z"); [reflexivity|now left]). rewrite L. now apply (same_dset b).
  - intros x y [<-|[<-|[]]] [<-|[<-|[]]]; vm_compute; discriminate.
  - qc.
  - qc.
Qed.

(** Without the condition the chain may go to and fro for ever: the coin that is turned over in every step. *)
Theorem C91_limit_refuted : exists b s x, sampled_net b /\ (0 < mass b (hard []) [])%Qc /\ In x (worlds b []) /\
  within_worlds 1 0 b [] (fun g => s g b (unobserved b []) true) /\ leaves_posterior 1 0 b [] (fun g => s g b (unobserved b []) true) /\
  posterior b (hard []) x = qq 1 2 /\
  forall burnIn, chance 1 0 (fun g => shows x 0 (generate_chain_with (Some s) (1 + 2 * burnIn) true g b 1 (x, 0%nat) (Some []))) = 1%Qc.
Proof.
  destruct C91_balanced_example as (SN & WW & BA & _). set (b := coin (qq 1 2) (qq 1 2)) in *. exists b, turned, [("Z", "t")].
  split; [exact SN|]. split; [vm_compute; reflexivity|]. split; [now left|]. split; [exact WW|]. split; [apply (C91_balanced b [] 1 0); [exact SN|lia|exact WW|exact BA]|].
  split; [qc|]. intros burnIn.
  assert (B : forall n g, burn (turned g b ["Z"] true) (2 * n) ([("Z", "t")], 0%nat) = Ok ([("Z", "t")], 0%nat)).
  { induction n as [|n IH]; intros g; [reflexivity|]. replace (2 * S n) with (S (S (2 * n))) by lia. cbn [burn]. cbn [turned fst snd look dget dset rbind]. apply IH. }
  unfold chance. cbn [streams filter]. unfold generate_chain_with. cbn [vars_to_change rbind sampler_model].
  replace (1 + 2 * burnIn) with (2 * burnIn + 1) by lia. rewrite burn_add.
  change (free_vars b []) with ["Z"]. rewrite B. vm_compute. apply Qc_is_canon. reflexivity.
Qed.

Print Assumptions C91_limit_chain.
Print Assumptions C91_limit_estimates.
Print Assumptions C91_limit_refuted.
