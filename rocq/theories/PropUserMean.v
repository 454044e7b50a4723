(** Property C91, continued: the mean of the estimates with a transition model of one's own. *)
From Coq Require Import Field.
From Verif Require Import Base NDArray Factor Exact Spec OrderSpec TreeSpec BaseFacts FactorProofs Checks Instances ExampleNets
  Sampling MCSpec MCFacts MCProof MCTop MCChain MCForward MCChecks MCMarginal LawSpec LawCount LawKernel LawOne LawChain LawPost LawForward LawMCMC
  SampleErrSpec SampleErrProof Stream StreamProof LawStuck PropMCMC PropLaw UserSampling UserSpec UserProof UserBalance UserMix UserEstimate PropUser.

(** ** If the steps leave the posterior as it is and the evidence is upstream, the numbers returned have the posterior as their mean. *)
Theorem C91_unbiased b ev order vs s full : sampled_net b -> stochastic_bn b -> topological b order -> NoDup (dkeys ev) -> legal_ev b ev ->
  incl (dkeys ev) (bnames b) -> upstream b ev -> (0 < mass b (hard ev) [])%Qc -> incl vs (bnames b) ->
  exists D, 0 < D /\ forall N c burnIn n q m, 0 < N -> Nat.divide D N ->
    draws_only c (fun g => s g b (unobserved b ev) full) ->
    (forall g, rng_ok g -> minds b ev (s g b (unobserved b ev) full) /\ never_stops b ev (s g b (unobserved b ev) full)) ->
    reads_values b (fun g => s g b (unobserved b ev) full) ->
    leaves_posterior N c b ev (fun g => s g b (unobserved b ev) full) ->
    0 < n -> is_inst b vs q -> length (filter (fun v => negb (dmem v ev)) order) + (burnIn + n) * c <= m ->
    expectation N m (fun g => estimate q (mcmc_marginals_with (Some s) burnIn full n g b order vs ev)) = posterior b (hard ev) q.
Proof.
  intros SN ST TO ND LE IN U MP VS. destruct (fwd_some b SN ev) as (D & P & H). exists D. split; [exact P|].
  intros N c burnIn n q m N0 DN DO MN RV LP n0 Q M.
  exact (user_unbiased b SN ST ev order TO ND IN LE N N0 (H N DN) s full c DO (fun g G => proj1 (MN g G)) (fun g G => proj2 (MN g G)) RV vs VS burnIn n q m LP U MP n0 Q M).
Qed.

(** ** The package's steps read values only; so do one step after another and a choice by a draw. *)
Theorem C91_values b : sampled_net b -> (forall t full vars, incl vars (bnames b) -> reads_values b (fun g => own t g b vars full)) /\
  (forall s s', reads_values b s -> reads_values b s' ->
     reads_values b (fun g a => match s g a with Ok a' => s' g a' | Err e => Err e end) /\ forall pick, reads_values b (chosen pick s s')).
Proof.
  intros SN. split; [intros t full vars I g x y k S; exact (step_same b SN t full g vars x y k I S)|].
  intros s s' R R'. split.
  - intros g x y k S. exact (alike_bind b (s g (x, k)) (s g (y, k)) (s' g) (s' g) (R g x y k S) (fun x' y' k' S' => R' g x' y' k' S')).
  - intros pick g x y k S. unfold chosen. cbn [fst snd]. destruct (pick _ _); [now apply R|now apply R'].
Qed.

(** A sweep of Gibbs sampling, then one change by Metropolis-Hastings. *)
Example C91_unbiased_example : exists N, 0 < N /\ forall burnIn n, 0 < n ->
  expectation N (3 + (burnIn + n) * 6) (fun g => estimate [("D", "t")] (mcmc_marginals_with (Some both) burnIn false n g net ["A"; "B"; "C"; "D"] ["D"] [("A", "f")])) = qq 1 2.
Proof.
  destruct C51_example as (SN & ST & TO & U & MP & LE & VS & Q & E & _). set (ev := [("A", "f")]) in *.
  assert (ND : NoDup (dkeys ev)) by (apply nodup_s_spec; reflexivity). assert (IN : incl (dkeys ev) (bnames net)) by (apply inclb_ok; reflexivity).
  assert (MZ : mass net (hard ev) [] <> 0%Qc) by (intros Z; apply (f_equal this) in Z; vm_compute in Z; discriminate).
  assert (F : unobserved net ev <> []) by (vm_compute; discriminate).
  destruct (C91_package net ev Gibbs true SN ND IN (or_introl eq_refl) MZ) as (D1 & M1 & N1 & P1 & L1).
  destruct (C91_package net ev MetropolisHastings false SN ND IN (or_intror F) MZ) as (D2 & M2 & N2 & P2 & L2).
  destruct (C91_unbiased net ev _ _ both false SN ST TO ND LE IN U MP VS) as (N3 & P3 & H).
  set (N := N1 * N2 * N3). assert (N0 : 0 < N) by (unfold N; nia).
  assert (V1 : Nat.divide N1 N) by (exists (N2 * N3); unfold N; ring). assert (V2 : Nat.divide N2 N) by (exists (N1 * N3); unfold N; ring). assert (V3 : Nat.divide N3 N) by (exists (N1 * N2); unfold N; ring).
  destruct (C91_sequence net ev N _ _ _ _ SN ND IN N0 MZ D1 D2 M1 M2 (L1 _ N0 V1) (L2 _ N0 V2)) as (A & B & C).
  assert (I : incl (unobserved net ev) (bnames net)) by (apply inclb_ok; vm_compute; reflexivity).
  pose proof (proj1 (proj2 (C91_values net SN) _ _ (proj1 (C91_values net SN) Gibbs true _ I) (proj1 (C91_values net SN) MetropolisHastings false _ I))) as R.
  exists N. split; [exact N0|]. intros burnIn n n0. rewrite <- E.
  exact (H N 6 burnIn n _ _ N0 V3 A B R C n0 Q (Nat.le_refl _)).
Qed.

(** ** A step that looks at the order of the keys: it stays in the states as they are listed, but puts Z to t in those a call
    starts with.  It leaves the posterior as it is, and the mean is wrong. *)
Definition coins : bn := mkBN [mkN "Y" ["t"; "f"] [] [] (mkArr [2] [qq 1 2; qq 1 2]); mkN "Z" ["t"; "f"] [] [] (mkArr [2] [qq 1 2; qq 1 2])] ["Y"; "Z"] [].
Definition keyed : user_step := fun _ _ _ _ a => match fst a with (v, _) :: _ => if String.eqb v "Y" then Ok a else Ok (dset "Z" "t" (fst a), snd a) | [] => Ok a end.

Lemma coins_ok : sampled_net coins /\ stochastic_bn coins /\ topological coins ["Z"; "Y"].
Proof.
  split; [|split].
  - constructor; [apply wf_bnb_ok; vm_compute; reflexivity|apply wf_graphb_ok; vm_compute; reflexivity| | |apply nonnegb_ok; vm_compute; reflexivity].
    + intros u v. cbn. split; [intros []|]. intros (n & [<-|[<-|[]]] & _ & []).
    + constructor.
  - assert (WF : wf_bn coins) by (apply wf_bnb_ok; vm_compute; reflexivity). exact (stochasticb_ok coins WF eq_refl).
  - apply topological_ok; [apply wf_bnb_ok| |]; vm_compute; reflexivity.
Qed.

Theorem C91_keys_refuted : exists b order s, sampled_net b /\ stochastic_bn b /\ topological b order /\
  draws_only 0 (fun g => s g b (unobserved b []) true) /\
  (forall g, minds b [] (s g b (unobserved b []) true) /\ never_stops b [] (s g b (unobserved b []) true)) /\
  leaves_posterior 2 0 b [] (fun g => s g b (unobserved b []) true) /\
  posterior b (hard []) [("Z", "t")] = qq 1 2 /\
  expectation 2 2 (fun g => estimate [("Z", "t")] (mcmc_marginals_with (Some s) 0 true 1 g b order ["Z"] [])) = 1%Qc /\
  expectation 2 6 (fun g => estimate [("Z", "t")] (mcmc_marginals_with (Some (own Gibbs)) 0 true 1 g b order ["Z"] [])) = qq 1 2.
Proof.
  exists coins, ["Z"; "Y"], keyed. destruct coins_ok as (SN & ST & TO). split; [exact SN|]. split; [exact ST|]. split; [exact TO|]. split; [|split; [|split; [|split; [|split]]]].
  - intros g g' st k k' _. unfold keyed. cbn [fst snd]. destruct st as [|[v a] st]; [repeat split; lia|]. destruct (String.eqb v "Y"); repeat split; lia.
  - intros g. split.
    + intros st k st' k' C K E. unfold keyed in E. cbn [fst snd] in E. split; [|intros v a H; discriminate H]. destruct st as [|[v a] st]; [inversion E; subst; exact C|].
      destruct (String.eqb v "Y"); [inversion E; subst; exact C|].
      assert (Z : st' = dset "Z" "t" ((v, a) :: st)) by congruence. rewrite Z. apply complete_dset; [exact C|]. vm_compute. now left.
    + intros st k e _ _. unfold keyed. cbn [fst snd]. destruct st as [|[v a] st]; [discriminate|]. destruct (String.eqb v "Y"); discriminate.
  - intros h. apply qsum_map_ext. intros x X. f_equal. unfold expectation. cbn [streams map qsum length]. rewrite Qcplus_0_r. replace (qnat 1) with 1%Qc by (apply Qc_is_canon; reflexivity).
    replace (worth h (keyed _ _ _ _ (x, 0%nat))) with (h x); [field; discriminate|]. destruct X as [<-|[<-|[<-|[<-|[]]]]]; reflexivity.
  - qc.
  - qc.
  - qc.
Qed.

(** ** Evidence that is not upstream: a step that stays where it is leaves the posterior as it is, and all estimates have the
    law of the forward sample. *)
Theorem C91_downstream_refuted : exists b ev order s, sampled_net b /\ stochastic_bn b /\ topological b order /\ NoDup (dkeys ev) /\ legal_ev b ev /\
  incl (dkeys ev) (bnames b) /\ (0 < mass b (hard ev) [])%Qc /\
  draws_only 0 (fun g => s g b (unobserved b ev) true) /\
  (forall g, minds b ev (s g b (unobserved b ev) true) /\ never_stops b ev (s g b (unobserved b ev) true)) /\
  reads_values b (fun g => s g b (unobserved b ev) true) /\
  leaves_posterior 2 0 b ev (fun g => s g b (unobserved b ev) true) /\
  posterior b (hard ev) [("A", "t")] = 1%Qc /\
  expectation 2 1 (fun g => estimate [("A", "t")] (mcmc_marginals_with (Some s) 3 true 2 g b order ["A"] ev)) = qq 1 2.
Proof.
  exists copy, [("B", "t")], ["A"; "B"], stayed. split; [exact copy_sampled|]. split; [exact copy_stochastic|]. split; [exact copy_topological|].
  split; [apply nodup_s_spec; reflexivity|]. split; [apply legal_evb_ok; reflexivity|]. split; [apply inclb_ok; reflexivity|]. split; [vm_compute; reflexivity|].
  split; [intros g g' st k k' _; cbn; repeat split; lia|]. split; [|split; [|split; [|split]]].
  - intros g. split; [|intros st k e _ _; discriminate]. intros st k st' k' C K E. inversion E; subst. now split.
  - intros g x y k S. cbn. now split.
  - intros h. apply qsum_map_ext. intros x _. f_equal. unfold expectation. cbn [streams map qsum length worth stayed]. rewrite Qcplus_0_r. replace (qnat 1) with 1%Qc by (apply Qc_is_canon; reflexivity). field. discriminate.
  - qc.
  - qc.
Qed.

Print Assumptions C91_unbiased.
Print Assumptions C91_values.
Print Assumptions C91_keys_refuted.
Print Assumptions C91_downstream_refuted.
