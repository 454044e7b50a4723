(** The spread of the estimates of MCMC.marginals. *)
From Coq Require Import Field QArith.
From Verif Require Import Base NDArray Factor Exact Spec OrderSpec BaseFacts FactorProofs SpecFacts Sampling MCSpec MCFacts MCProof MCTop MCChain MCForward MCMarginal
  LawSpec LawCount LawKernel LawOne LawChain LawPost LawMean LawErgodic LawForward LawMCMC LawEstimate LawTop LawLarge.

Lemma Qcle_refl' (x y : Qc) : x = y -> (x <= y)%Qc.
Proof. intros ->. apply Qcle_refl. Qed.

Section Net.
Variable b : bn.
Hypothesis SN : sampled_net b.
Hypothesis ST : stochastic_bn b.
Variable ev : dict string.
Variable order : list string.
Hypothesis TO : topological b order.
Hypothesis ND : NoDup (dkeys ev).
Hypothesis IN : incl (dkeys ev) (bnames b).
Hypothesis LE : legal_ev b ev.
Notation W := (worlds b ev).
Notation x0 := (fold_left (fun d p => dset (fst p) (snd p) d) ev []).
Notation c0 := (length (unset ev order)).
Variable N : nat.
Hypothesis N0 : 0 < N.
Hypothesis FF : fwd_fine b ev N.
Notation NN := (qnat N * qnat N)%Qc.
Variable t : transition.
Variable full : bool.
Hypothesis F : full = true \/ free_vars b ev <> [].
Notation c := (per_step t full (free_vars b ev)).
Notation stepper := (stepp b t full (free_vars b ev)).
Variable q : dict string.
Hypothesis QI : incl (dkeys q) (bnames b).
Variable mu : Qc.
Notation z := (fun s => ind (agrees q s) - mu)%Qc.

Lemma yields_tally g n : forall s k chain, yields (step t full g b (free_vars b ev)) n (s, k) = Ok chain ->
  qsum (map z chain) = tally stepper c z n s (dl g k (n * c)).
Proof.
  induction n as [|n IH]; intros s k chain H; cbn [yields] in H; [inversion H; reflexivity|].
  pose proof (step_computes b t full (free_vars b ev) F g s k) as SC. cbv beta in SC.
  destruct (step t full g b (free_vars b ev) (s, k)) as [[s1 k1]|] eqn:E1; cbn [rbind] in H; [|discriminate].
  destruct (yields _ n (s1, k1)) as [l|] eqn:Y; cbn [rbind] in H; [|discriminate]. inversion H; subst chain. cbn [map qsum fst].
  rewrite (IH s1 k1 l Y). cbn [tally Nat.mul]. unfold rfollow. rewrite dl_firstn, dl_skipn.
  destruct (stepper s (dl g k c)) as [s2|]; cbn [rbind] in SC; [|discriminate]. inversion SC; subst. reflexivity.
Qed.

Lemma tally_chain chain : qsum (map z chain) = (qnat (hits q chain) - qnat (length chain) * mu)%Qc.
Proof.
  unfold hits. induction chain as [|s l IH]; cbn [map qsum filter length]; [change (qnat 0) with 0%Qc; ring|]. rewrite IH, qnat_S.
  destruct (agrees q s); cbn [ind length]; [rewrite qnat_S|]; ring.
Qed.

Definition run burnIn n : rprog := rfollow c0 (initp b ev order) (rfollow (burnIn * c) (burnp c stepper burnIn) (tally stepper c z n)).

Variable vs : list string.
Hypothesis VS : incl vs (bnames b).

Lemma estimate_tally burnIn n m l : 0 < n -> is_inst b vs q -> In l (streams N m) -> c0 + (burnIn + n) * c <= m ->
  (estimate q (mcmc_marginals t burnIn full n (gen l) b order vs ev) - mu)%Qc = (/ qnat n * run burnIn n x0 (firstn (c0 + (burnIn * c + n * c))%nat l))%Qc.
Proof.
  intros n0 Q L M. assert (nz : n <> 0) by lia.
  destruct (mcmc_frequencies b t burnIn full n (gen l) order vs ev SN (stream_ok N m l L) TO ND LE VS nz F) as (s & k & chain & f & GS & GC & LC & MM & R & _).
  rewrite MM. cbn [estimate]. assert (P := proj2 (proj2 (proj2 (proj2 (proj2 (proj2 R)))))). rewrite (P q Q).
  assert (LL : length l = m) by exact (proj1 (Forall_forall _ _) (streams_length N m) l L).
  rewrite <- dl_gen by (rewrite LL; nia). unfold run, rfollow at 1. rewrite dl_firstn, dl_skipn.
  pose proof (init_computes b ev order (gen l) x0 0) as IC. cbv beta in IC. unfold get_sample in GS.
  assert (IC2 := eq_trans (eq_sym GS) IC). clear IC GS.
  destruct (initp b ev order x0 (dl (gen l) 0 c0)) as [s'|]; cbn [rbind] in IC2; [|discriminate]. inversion IC2; subst s' k. clear IC2. cbn [Nat.add] in *.
  unfold generate_chain in GC. cbn [vars_to_change rbind] in GC.
  pose proof (burn_computes _ _ _ burnIn (step_computes b t full (free_vars b ev) F) (gen l) s c0) as BC. cbv beta in BC.
  unfold rfollow. rewrite dl_firstn, dl_skipn.
  destruct (burn (step t full (gen l) b (free_vars b ev)) burnIn (s, c0)) as [[s1 k1]|] eqn:B; cbn [rbind] in GC; [|discriminate].
  rename BC into BC2.
  destruct (burnp c stepper burnIn s (dl (gen l) c0 (burnIn * c))) as [s2|]; cbn [rbind] in BC2; [|discriminate]. inversion BC2; subst s2 k1. clear BC2.
  rewrite <- (yields_tally (gen l) n s1 _ chain GC), tally_chain, LC. field. now apply qnat_neq0.
Qed.

(** The number in terms of the start state. *)
Lemma stepper_same x y l : length l = c -> same b x y ->
  match stepper x l, stepper y l with Ok s, Ok s' => same b s s' | Err _, Err _ => True | _, _ => False end.
Proof.
  intros L S. pose proof (step_same b SN t full (gen l) (free_vars b ev) x y 0 (free_names b SN ev) S) as A.
  pose proof (step_computes b t full (free_vars b ev) F (gen l) x 0) as E1. pose proof (step_computes b t full (free_vars b ev) F (gen l) y 0) as E2. cbv beta in E1, E2.
  rewrite (dl_gen l c) in E1, E2 by lia. rewrite <- L, firstn_all in E1, E2. unfold alike in A.
  destruct (step t full (gen l) b (free_vars b ev) (x, 0)) as [[s k]|], (step t full (gen l) b (free_vars b ev) (y, 0)) as [[s' k']|]; try contradiction;
  destruct (stepper x l), (stepper y l); cbn [rbind] in E1, E2; try discriminate; auto.
  inversion E1; inversion E2; subst. apply A.
Qed.

Lemma tally_same n : forall x y l, length l = n * c -> same b x y -> tally stepper c z n x l = tally stepper c z n y l.
Proof.
  induction n as [|n IH]; intros x y l L S; [reflexivity|]. cbn [tally Nat.mul] in *. unfold rfollow.
  pose proof (stepper_same x y (firstn c l)) as A. rewrite firstn_length in A. specialize (A ltac:(lia) S).
  destruct (stepper x (firstn c l)) as [s|], (stepper y (firstn c l)) as [s'|]; try contradiction; [|reflexivity].
  rewrite (agrees_same b q s s' QI A). f_equal. apply IH; [|exact A]. rewrite skipn_length. lia.
Qed.

Lemma burn_same_mean k g : (forall x y, same b x y -> g x = g y) -> forall x y, same b x y ->
  mean N (k * c) (burnp c stepper k) g x = mean N (k * c) (burnp c stepper k) g y.
Proof.
  intros G. rename k into k0. induction k0 as [|k IH]; intros x y S.
  - cbn [Nat.mul burnp]. rewrite !mean_pause by exact N0. auto.
  - cbn [Nat.mul burnp]. rewrite !mean_follow by exact N0. unfold mean at 1 3. f_equal. apply qsum_map_ext. intros l L.
    assert (LL : length l = c) by exact (proj1 (Forall_forall _ _) (streams_length N c) l L). pose proof (stepper_same x y l LL S) as A.
    destruct (stepper x l), (stepper y l); try contradiction; cbn [val]; auto.
Qed.

Lemma run_square burnIn n : rmean N (c0 + (burnIn * c + n * c)) (square (run burnIn n)) x0 =
  qsum (map (fun y => fwd b ev y * iter (mean N c stepper) burnIn (rmean N (n * c) (square (tally stepper c z n))) y)%Qc W).
Proof.
  transitivity (rmean N (c0 + (burnIn * c + n * c)) (rfollow c0 (initp b ev order) (rfollow (burnIn * c) (burnp c stepper burnIn) (square (tally stepper c z n)))) x0).
  - apply rmean_ext. intros l _. unfold square, run, rfollow. destruct (initp _ _ _ _ _) as [s|]; [|ring]. destruct (burnp _ _ _ _ _); [reflexivity|ring].
  - rewrite (rmean_follow N N0), (init_mean b SN ST ev order TO ND IN LE N N0 FF).
    + apply qsum_map_ext. intros y Y. f_equal. rewrite (rmean_follow N N0). now rewrite (mean_burn N N0).
    + intros s C K. rewrite !(rmean_follow N N0). apply burn_same_mean; [|now apply canon_same]. intros x y S. unfold rmean. f_equal. apply qsum_map_ext.
      intros l L. unfold square. rewrite (tally_same n x y l); [reflexivity| |exact S]. exact (proj1 (Forall_forall _ _) (streams_length N (n * c)) l L).
Qed.

Lemma square_mean burnIn n m : 0 < n -> is_inst b vs q -> c0 + (burnIn + n) * c <= m ->
  expectation N m (fun g => (estimate q (mcmc_marginals t burnIn full n g b order vs ev) - mu) * (estimate q (mcmc_marginals t burnIn full n g b order vs ev) - mu))%Qc =
  (/ qnat n * / qnat n * qsum (map (fun y => fwd b ev y * iter (mean N c stepper) burnIn (rmean N (n * c) (square (tally stepper c z n))) y)%Qc W))%Qc.
Proof.
  intros n0 Q M. rewrite <- run_square. set (K := c0 + (burnIn * c + n * c)). assert (KM : K <= m) by (unfold K; nia).
  assert (NZ : powc NN m <> 0%Qc) by (apply NNc; exact N0). unfold expectation. rewrite streams_count.
  transitivity (qsum (map (fun l => / qnat n * / qnat n * square (run burnIn n) x0 (firstn K l))%Qc (streams N m)) / powc NN m)%Qc.
  { f_equal. apply qsum_map_ext. intros l L. rewrite (estimate_tally burnIn n m l n0 Q L M). unfold square, K. ring. }
  rewrite qsum_mult_l, (streams_prefix N K m (square (run burnIn n) x0) KM), (rmean_eq N N0).
  replace m with ((m - K) + K) in NZ |- * at 2 by lia. rewrite powc_add in NZ |- *.
  unfold Qcdiv. set (A := powc NN (m - K)) in *. set (B := powc NN K) in *. field. split; [now apply qnat_neq0|].
  split; intros Z; apply NZ; rewrite Z; ring.
Qed.

(** ** The bound *)
Hypothesis GF : gibbs_fine b ev N.
Hypothesis MF : mh_fine b ev N.
Hypothesis DF : div_fine b N.
Hypothesis VF : free_vars b ev <> [] -> Nat.divide (length (free_vars b ev)) N.
Variable r : nat.
Variable e : Qc.
Hypothesis MX : mixing b ev full r e.
Hypothesis SP : starts_possible b ev.
Hypothesis MU : mu = posterior b (hard ev) q.
Notation L := (possible b ev).

Lemma mu_range x : In x L -> (0 <= mu)%Qc /\ (mu <= 1)%Qc.
Proof.
  intros X. rewrite MU, (post_mean b ev ND IN q (live_mass b SN ev ND IN x X)). assert (T := total_pos b SN ev x X).
  split.
  - apply Qcdiv_nonneg; [|exact T]. apply qsum_nonneg, Forall_forall. intros w Z. apply in_map_iff in Z as (s & <- & S). apply Qcmult_nonneg; [now apply joint_nonneg|]. destruct (agrees q s); discriminate.
  - apply (Qcmult_lt_0_le_reg_r _ _ _ T). unfold Qcdiv. rewrite <- Qcmult_assoc, (Qcmult_comm (/ _)), Qcmult_inv_r, Qcmult_1_r, Qcmult_1_l.
    + apply qsum_le. intros s S. pose proof (joint_nonneg b SN s). destruct (agrees q s); cbn [ind]; [rewrite Qcmult_1_r; apply Qcle_refl|now rewrite Qcmult_0_r].
    + intros Z. rewrite Z in T. now apply Qc_lt_irrefl in T.
Qed.

Lemma square_bound burnIn n m : 0 < n -> is_inst b vs q -> c0 + (burnIn + n) * c <= m ->
  (expectation N m (fun g => (estimate q (mcmc_marginals t burnIn full n g b order vs ev) - mu) * (estimate q (mcmc_marginals t burnIn full n g b order vs ev) - mu)) <=
   (1 + (1 + 1) * (qnat r / e)) / qnat n)%Qc.
Proof.
  intros n0 Q M. rewrite (square_mean burnIn n m n0 Q M). set (B := (1 + (1 + 1) * (qnat r / e))%Qc).
  assert (NP : (0 < / qnat n)%Qc) by (apply Qcinv_pos; now apply qnat_pos).
  assert (TA := step_avg b SN ev N N0 GF MF DF VF t full F). assert (MX' := MX). destruct MX' as (R0 & E0 & E1 & _).
  assert (H : (qsum (map (fun y => fwd b ev y * iter (mean N c stepper) burnIn (rmean N (n * c) (square (tally stepper c z n))) y) W) <= qnat n * B)%Qc).
  { apply (convex (fwd b ev) _ W 0%Qc).
    - intros y _. now apply fwd_nonneg.
    - exact (fwd_total b SN ST ev order TO ND IN LE N N0 FF).
    - intros y YW. destruct (fwd_live b SN ev y SP YW) as [Z|Y]; [now left|right]. assert (IA := iter_avg L _ burnIn TA).
      assert (G1 : forall s, In s L -> (0 <= rmean N (n * c) (square (tally stepper c z n)) s)%Qc).
      { intros s _. unfold rmean. apply Qcdiv_nonneg; [|apply powc_pos; apply Qcmult_pos; now apply qnat_pos].
        apply qsum_nonneg, Forall_forall. intros w Z. apply in_map_iff in Z as (l & <- & _). unfold square.
        set (a := tally stepper c z n s l). destruct (Qclt_le_dec a 0) as [A|A]; [|now apply Qcmult_nonneg].
        replace (a * a)%Qc with ((0 + - a) * (0 + - a))%Qc by ring. apply Qclt_le_weak in A. apply -> Qcle_minus_iff in A. now apply Qcmult_nonneg. }
      assert (G2 : forall s, In s L -> (rmean N (n * c) (square (tally stepper c z n)) s <= qnat n * B)%Qc).
      { intros s S. apply (spread N N0 stepper c L TA (fun s => ind (agrees q s)) mu e r R0 E0 E1).
        - intros k x X. rewrite MU. exact (value_near b SN ev ND IN N N0 GF MF DF VF t full F r e MX k q x X).
        - intros x _. destruct (agrees q x); split; discriminate.
        - exact (mu_range y Y).
        - exact S. }
      split.
      + now apply (av_mono _ _ IA).
      + assert (P : (0 <= iter (mean N c stepper) burnIn (fun s => (-(1)) * rmean N (n * c) (square (tally stepper c z n)) s + qnat n * B) y)%Qc).
        { apply (av_mono _ _ IA); [|exact Y]. intros s S. specialize (G2 s S). apply -> Qcle_minus_iff in G2.
          replace (- (1) * rmean N (n * c) (square (tally stepper c z n)) s + qnat n * B)%Qc with (qnat n * B + - rmean N (n * c) (square (tally stepper c z n)) s)%Qc by ring. exact G2. }
        rewrite (av_affine _ _ IA) in P by exact Y. apply Qcle_minus_iff. eapply Qcle_trans; [exact P|]. apply Qcle_refl'. ring. }
  apply Qcle_trans with (/ qnat n * / qnat n * (qnat n * B))%Qc.
  - rewrite !(Qcmult_comm (/ qnat n * / qnat n)). apply Qcmult_le_compat_r; [exact H|]. apply Qcmult_nonneg; now apply Qclt_le_weak.
  - unfold Qcdiv. apply Qcle_refl'. assert (QZ := qnat_neq0 n n0). set (Bc := B). clearbody Bc. field. exact QZ.
Qed.
End Net.

Lemma chebyshev N m (X : rng -> Qc) p delta : (0 <= delta)%Qc ->
  (chance N m (fun g => far p delta (X g)) * (delta * delta) <= expectation N m (fun g => (X g - p) * (X g - p)))%Qc.
Proof.
  intros D. unfold chance, expectation, Qcdiv. rewrite <- Qcmult_assoc, (Qcmult_comm (/ _)), Qcmult_assoc.
  set (L := length (streams N m)). apply Qcmult_le_compat_r.
  - rewrite <- qsum_indicator. rewrite Qcmult_comm, <- qsum_mult_l. apply qsum_le. intros l _. unfold far.
    assert (S : forall a, (0 <= a)%Qc -> (delta * delta <= (delta + a) * (delta + a))%Qc).
    { intros a A. apply Qcle_minus_iff. replace ((delta + a) * (delta + a) + - (delta * delta))%Qc with (a * (delta + delta + a))%Qc by ring.
      apply Qcmult_nonneg; [exact A|]. rewrite <- (Qcplus_0_l 0%Qc). apply Qcplus_le_compat; [|exact A]. rewrite <- (Qcplus_0_l 0%Qc). now apply Qcplus_le_compat. }
    destruct (qltb (X (gen l) + delta)%Qc p) eqn:E1; cbn [orb]; [|destruct (qltb (p + delta)%Qc (X (gen l))) eqn:E2].
    + apply qltb_true, Qclt_le_weak in E1. apply -> Qcle_minus_iff in E1. specialize (S _ E1). rewrite Qcmult_1_r. eapply Qcle_trans; [exact S|]. apply Qcle_refl'. ring.
    + apply qltb_true, Qclt_le_weak in E2. apply -> Qcle_minus_iff in E2. specialize (S _ E2). rewrite Qcmult_1_r. eapply Qcle_trans; [exact S|]. apply Qcle_refl'. ring.
    + rewrite Qcmult_0_r. set (a := (X (gen l) - p)%Qc). destruct (Qclt_le_dec a 0) as [A|A]; [|now apply Qcmult_nonneg].
      replace (a * a)%Qc with ((0 + - a) * (0 + - a))%Qc by ring. apply Qclt_le_weak in A. apply -> Qcle_minus_iff in A. now apply Qcmult_nonneg.
  - destruct L as [|L]; [apply Qcle_refl'; reflexivity|]. apply Qclt_le_weak, Qcinv_pos, qnat_pos. lia.
Qed.
