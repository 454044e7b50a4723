(** Chains of any transition model that can reach every state in one step approach the posterior. *)
From Coq Require Import Field QArith.
From Verif Require Import Base NDArray Factor Exact Spec OrderSpec BaseFacts FactorProofs SpecFacts Sampling MCSpec MCFacts MCProof MCTop MCChain MCForward MCMarginal
  LawSpec LawCount LawKernel LawOne LawChain LawPost LawMean LawErgodic LawForward LawMCMC LawEstimate LawTop SampleErrSpec SampleErrProof Stream StreamProof
  UserSampling UserSpec UserProof UserBalance UserEstimate.

Section Net.
Variable b : bn.
Hypothesis SN : sampled_net b.
Variable ev : dict string.
Hypothesis ND : NoDup (dkeys ev).
Hypothesis IN : incl (dkeys ev) (bnames b).
Hypothesis MP : (0 < mass b (hard ev) [])%Qc.
Notation W := (worlds b ev).
Variable N : nat.
Hypothesis N0 : 0 < N.
Variable s : user_step.
Variable full : bool.
Let f : rng -> move := fun g => s g b (unobserved b ev) full.
Variable c : nat.
Hypothesis DO : draws_only c f.
Hypothesis MI : forall g, rng_ok g -> minds b ev (f g).
Hypothesis NS : forall g, rng_ok g -> never_stops b ev (f g).
Hypothesis WW : within_worlds N c b ev f.
Hypothesis LP : leaves_posterior N c b ev f.
Variable e : Qc.
Hypothesis E0 : (0 <= e)%Qc.
Hypothesis SP : spreads N c b ev f e.
Notation stepm := (mean N c (asprog f)).
Notation K := (mass b (hard ev) []).

Lemma mass_nz : K <> 0%Qc.
Proof. intros E. rewrite E in MP. now apply Qc_lt_irrefl in MP. Qed.

Lemma stepm_expect h x : stepm h x = expectation N c (fun g => worth h (f g (x, 0%nat))).
Proof. apply mean_eq; [exact N0|]. symmetry. exact (expect_sum N N0 f c h x). Qed.

Lemma chance_nonneg P : (0 <= chance N c P)%Qc.
Proof.
  unfold chance. apply Qcdiv_nonneg; [apply (qnat_le 0); lia|]. rewrite streams_count. apply powc_pos. apply Qcmult_pos; now apply qnat_pos.
Qed.

Lemma stepm_sum h x : In x W -> stepm h x = qsum (map (fun y => chance N c (fun g => drawn y (f g (x, 0%nat))) * h y)%Qc W).
Proof. intros X. rewrite stepm_expect. exact (mean_chance b SN ev N c f WW h x X). Qed.

Lemma stepm_avg : averaging W stepm.
Proof.
  constructor.
  - intros h g H x X. rewrite !stepm_sum by exact X. apply qsum_map_ext. intros y Y. now rewrite (H y Y).
  - intros a d h x X. rewrite !stepm_sum by exact X. rewrite <- qsum_mult_l.
    transitivity (qsum (map (fun y => a * (chance N c (fun g => drawn y (f g (x, 0%nat))) * h y) + d * chance N c (fun g => drawn y (f g (x, 0%nat))))%Qc W)).
    + apply qsum_map_ext. intros; ring.
    + rewrite qsum_plus. f_equal. rewrite qsum_mult_l, (chance_all b SN ev N c N0 f WW x X). ring.
  - intros h H x X. rewrite stepm_sum by exact X. apply qsum_nonneg, Forall_forall. intros z Z. apply in_map_iff in Z as (y & <- & Y).
    apply Qcmult_nonneg; [apply chance_nonneg|now apply H].
Qed.

Lemma stepm_reaches x y : In x W -> In y W -> reaches W (iter stepm 1) e x y.
Proof.
  intros X Y h H. cbn [iter]. rewrite stepm_sum by exact X. apply Qcle_trans with (chance N c (fun g => drawn y (f g (x, 0%nat))) * h y)%Qc.
  - apply Qcmult_le_compat_r; [now apply SP|now apply H].
  - apply (In_qsum_le (chance N c (fun g => drawn y (f g (x, 0%nat))) * h y)%Qc).
    + apply Forall_forall. intros z Z. apply in_map_iff in Z as (u & <- & U). apply Qcmult_nonneg; [apply chance_nonneg|now apply H].
    + apply in_map_iff. now exists y.
Qed.

Notation w := (fun x => posterior b (hard ev) x).

Lemma user_value n q x : In x W ->
  (posterior b (hard ev) q - power (1 - e) n <= iter stepm n (fun s => ind (agrees q s)) x)%Qc /\
  (iter stepm n (fun s => ind (agrees q s)) x <= posterior b (hard ev) q + power (1 - e) n)%Qc.
Proof.
  intros X. assert (KZ := mass_nz). rewrite power_powc. set (h := fun s => ind (agrees q s)).
  assert (PS : forall g, avg W w g = (/ K * qsum (map (fun x => joint b x * g x)%Qc W))%Qc) by (intros g; exact (posterior_sum b SN ev ND IN KZ g)).
  assert (PQ : avg W w h = posterior b (hard ev) q).
  { rewrite PS. unfold h. rewrite <- (mass_worlds b ev ND IN). unfold posterior. destruct (qeqb K 0%Qc) eqn:E; [now apply qeqb_true in E|]. unfold Qcdiv. ring. }
  rewrite <- PQ. assert (D1 : powc (1 - e)%Qc n = powc (1 - e)%Qc (n / 1)) by now rewrite Nat.div_1_r. rewrite D1. revert x X.
  apply (iter_close W w) with (r := 1); auto using stepm_avg, stepm_reaches.
  - intros y Y. unfold posterior. destruct (qeqb K 0%Qc) eqn:E; [discriminate|]. rewrite (mass_full b SN ev ND IN y Y). apply Qcdiv_nonneg; [now apply joint_nonneg|exact MP].
  - transitivity (avg W w (fun _ => 1%Qc)); [unfold avg; apply qsum_map_ext; intros; ring|]. rewrite PS.
    rewrite (qsum_map_ext _ (joint b)) by (intros; ring). rewrite <- (mass_total b ev ND IN), Qcmult_comm. now apply Qcmult_inv_r.
  - intros g. unfold avg. rewrite <- (LP g). apply qsum_map_ext. intros y _. f_equal. apply stepm_expect.
  - intros y _. unfold h. destruct (agrees q y); cbn [ind]; split; discriminate.
Qed.

Lemma user_chain_near burnIn n j q m x : In x W -> j < n -> (burnIn + S j) * c <= m ->
  let C := chance N m (fun g => shows q j (let* acc := burn (f g) burnIn (x, 0%nat) in yields (f g) n acc)) in
  (posterior b (hard ev) q - power (1 - e) (burnIn + S j) <= C)%Qc /\ (C <= posterior b (hard ev) q + power (1 - e) (burnIn + S j))%Qc.
Proof.
  intros X J M C. replace C with (iter stepm (burnIn + S j) (fun s => ind (agrees q s)) x); [now apply user_value|].
  rewrite <- (mean_burn N N0). apply mean_eq; [exact N0|]. symmetry.
  exact (user_chance b ev N N0 f c DO MI NS burnIn n j x q m (worlds_complete b SN ev x X) (worlds_keep b SN ev x IN X) J M).
Qed.

Hypothesis ST : stochastic_bn b.
Variable order : list string.
Hypothesis TO : topological b order.
Hypothesis LE : legal_ev b ev.
Hypothesis FF : fwd_fine b ev N.
Hypothesis RV : reads_values b f.
Hypothesis E1 : (e <= 1)%Qc.
Variable vs : list string.
Hypothesis VS : incl vs (bnames b).

Lemma user_estimate_near burnIn n q m : 0 < n -> is_inst b vs q -> length (unset ev order) + (burnIn + n) * c <= m ->
  let M := expectation N m (fun g => estimate q (mcmc_marginals_with (Some s) burnIn full n g b order vs ev)) in
  (posterior b (hard ev) q - power (1 - e) (S burnIn) <= M)%Qc /\ (M <= posterior b (hard ev) q + power (1 - e) (S burnIn))%Qc.
Proof.
  intros n0 Q L M. unfold M. rewrite (user_estimate_mean b SN ST ev order TO ND IN LE N N0 FF s full c DO MI NS RV vs VS burnIn n q m n0 Q L).
  fold f. set (p := power (1 - e)%Qc (S burnIn)). unfold bigsum. rewrite <- qsum_mult_l.
  apply (convex (fun _ => / qnat n)%Qc).
  - intros j _. apply Qclt_le_weak, Qcinv_pos. now apply qnat_pos.
  - rewrite qsum_const, seq_length. apply Qcmult_inv_r. now apply qnat_neq0.
  - intros j J. right. apply (convex (fwd b ev)).
    + intros y _. now apply fwd_nonneg.
    + exact (fwd_total b SN ST ev order TO ND IN LE N N0 FF).
    + intros y Y. right. destruct (user_value (burnIn + S j) q y Y) as [A B].
      assert (R : (power (1 - e)%Qc (burnIn + S j) <= p)%Qc).
      { apply power_antitone; [apply -> Qcle_minus_iff; exact E1| |lia]. apply Qcle_minus_iff. replace (1 + - (1 - e))%Qc with e by ring. exact E0. }
      split; [eapply Qcle_trans; [|exact A]|eapply Qcle_trans; [exact B|]].
      * apply Qcplus_le_compat; [apply Qcle_refl|]. now apply Qcopp_le_compat.
      * apply Qcplus_le_compat; [apply Qcle_refl|exact R].
Qed.
End Net.
