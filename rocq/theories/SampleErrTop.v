From Verif Require Import Base NDArray Factor Exact Spec OrderSpec TreeSpec BaseFacts SpecFacts Sampling MCSpec MCChain MCForward SampleErrSpec SampleErrProof.

Lemma sample_raises b g order k ev e : sampled_net b -> rng_ok g -> topological b order -> NoDup (dkeys ev) ->
  (get_sample g k b order ev = Err e <-> e = ValueError /\ exists n, undrawable b ev n).
Proof.
  intros SN RG TO ND. destruct (sample_outcome b SN g RG ev order TO k ND) as [S1 S2]. destruct (undrawable_all b ev) as [U|U].
  - rewrite (S1 U). split; [intros H; injection H as <-; now split|intros [-> _]; reflexivity].
  - destruct (S2 U) as (st & -> & _). split; [discriminate|]. intros (_ & n & X). destruct (U n X).
Qed.

Lemma chain_raises b g t burnIn full N st k ev e : sampled_net b -> rng_ok g -> started b ev st ->
  (generate_chain t burnIn full g b N (st, k) (Some ev) = Err e <-> chain_fault t full g k (burnIn + N) b ev e).
Proof.
  intros SN RG S. destruct (chain_outcome b SN g RG ev t burnIn full N st k S) as [C1 C2].
  split; [|apply C1]. intros E. destruct (chain_fault_dec b SN g ev t full k (burnIn + N)) as [(x & F)|F].
  - pose proof (C1 x F). assert (x = e) by congruence. now subst.
  - destruct (C2 F) as (l & X & _). congruence.
Qed.

Lemma default_raises b g t burnIn full N st k e : sampled_net b ->
  (generate_chain t burnIn full g b N (st, k) None = Err e <->
   e = TypeError /\ bnames b <> [] \/ e = IndexError /\ bnames b = [] /\ full = false /\ 0 < burnIn + N).
Proof.
  intros SN. pose proof (wg_nodes _ (sn_graph b SN)) as P. unfold generate_chain, vars_to_change. destruct (border b) as [|v l] eqn:EB.
  - apply Permutation_sym, Permutation_nil in P. cbn [rbind]. destruct full.
    + assert (B : forall n acc, burn (step t true g b []) n acc = Ok acc) by (induction n as [|n IH]; intros acc; [reflexivity|]; cbn; apply IH).
      assert (Y : forall n acc, exists l, yields (step t true g b []) n acc = Ok l).
      { induction n as [|n IH]; intros acc; [now exists []|]. cbn [yields]. change (step t true g b [] acc) with (Ok acc). cbn [rbind]. destruct (IH acc) as (l & E). rewrite E. cbn [rbind]. eexists; reflexivity. }
      rewrite B. cbn [rbind]. destruct (Y N (st, k)) as (l & E). rewrite E. split; [discriminate|]. intros [(_ & X)|(_ & _ & X & _)]; congruence.
    + destruct burnIn as [|m]; [destruct N as [|n]|]; cbn.
      * split; [discriminate|]. intros [(_ & X)|(_ & _ & _ & X)]; [congruence|lia].
      * split; [intros X; injection X as <-; right; repeat split; auto; lia|intros [(_ & X)|(-> & _)]; [congruence|reflexivity]].
      * split; [intros X; injection X as <-; right; repeat split; auto; lia|intros [(_ & X)|(-> & _)]; [congruence|reflexivity]].
  - cbn [rbind]. assert (NE : bnames b <> []) by (intros X; rewrite X in P; apply Permutation_nil in P; discriminate).
    split; [intros X; injection X as <-; left; now split|]. intros [(-> & _)|(_ & X & _)]; [reflexivity|contradiction].
Qed.

Lemma mcmc_raises b g t burnIn full N order vs ev e : sampled_net b -> rng_ok g -> topological b order -> NoDup (dkeys ev) ->
  (mcmc_marginals t burnIn full N g b order vs ev = Err e <-> mcmc_fault t full g burnIn N b ev vs e).
Proof.
  intros SN RG TO ND. destruct (mcmc_cases b SN g RG ev order TO t full burnIn N vs ND) as [(x & F & E)|(F & f & E)]; rewrite E.
  - split; [intros X; injection X as <-; exact F|]. intros X. f_equal. eapply mcmc_fault_one; eauto.
  - split; [discriminate|]. intros X. destruct (F e X).
Qed.
