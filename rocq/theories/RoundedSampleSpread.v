(** The spread of the estimates of MCMC.marginals in rounded arithmetic. *)
From Coq Require Import Field QArith.
From Verif Require Import Base NDArray Factor Exact Spec OrderSpec BaseFacts NDArrayFacts FactorFacts FactorSpec FactorProofs SpecFacts Sampling MCSpec MCFacts MCProof MCTop MCChain MCForward MCMarginal
  LawSpec LawCount LawKernel LawOne LawChain LawMean LawErgodic LawForward LawMCMC LawEstimate LawTop LawLarge LawSpread
  Rounded RoundedSpec RoundedProof RoundedTables RoundedTop RoundedDouble RoundedSample RoundedSampleSpec RoundedSampleDraw RoundedSampleOne RoundedSampleChain RoundedSampleStay
  RoundedSampleMix RoundedSampleCount RoundedSampleForward RoundedSampleTop.
Local Open Scope nat_scope.

(** ** A chain whose bias does not vanish *)
Section Bias.
Variable N : nat.
Hypothesis N0 : 0 < N.
Variable F : prog.
Variable c : nat.
Variable L : list (dict string).
Notation NN := (qnat N * qnat N)%Qc.
Notation T := (mean N c F).

Lemma total_averaging : total_on L N F c -> averaging L T.
Proof.
  intros H. split.
  - intros f g E x X. unfold mean. f_equal. apply qsum_map_ext. intros l Hl. destruct (H x l X Hl) as (s & -> & S). cbn [val]. auto.
  - intros a d f x X. apply mean_eq; [exact N0|]. transitivity (qsum (map (fun l => a * val f (F x l) + d)%Qc (streams N c))).
    + apply qsum_map_ext. intros l Hl. destruct (H x l X Hl) as (s & -> & S). reflexivity.
    + rewrite qsum_plus, qsum_mult_l, qsum_const, streams_count, (eq_mean N N0). ring.
  - intros f P x X. unfold mean. apply Qcdiv_nonneg; [|now apply powc_NN_pos]. apply qsum_nonneg, Forall_forall. intros w Z. apply in_map_iff in Z as (l & <- & Hl).
    destruct (H x l X Hl) as (s & -> & S). cbn [val]. auto.
Qed.

Hypothesis TA : averaging L T.
Variable h : dict string -> Qc.
Variable mu : Qc.
Notation z := (fun s => h s - mu)%Qc.
Notation E k := (rmean N (k * c) (tally F c z k)).
Notation G k := (rmean N (k * c) (square (tally F c z k))).
Hypothesis h01 : forall s, In s L -> (0 <= h s)%Qc /\ (h s <= 1)%Qc.
Hypothesis mu01 : (0 <= mu)%Qc /\ (mu <= 1)%Qc.

Lemma G_upto K C : (forall k s, k <= K -> In s L -> (- C <= E k s)%Qc /\ (E k s <= C)%Qc) -> forall k, k <= K -> forall x, In x L -> (G k x <= qnat k * (1 + (1 + 1) * C))%Qc.
Proof.
  intros EC. induction k as [|k IH]; intros KK x X.
  - cbn [Nat.mul tally]. rewrite (rmean_ext N 0 _ (fun _ _ => 0)%Qc) by (intros; unfold square; ring). rewrite rmean_const by exact N0. change (qnat 0) with 0%Qc.
    replace (0 * _)%Qc with 0%Qc by ring. apply Qcle_refl.
  - rewrite G_step by exact N0. apply (T_le N F c L TA); [|exact X]. intros s S. rewrite qnat_S. destruct (h01 s S) as [H0 H1], mu01 as [M0 M1]. destruct (EC k s ltac:(lia) S) as [E1 E2].
    assert (A1 : (- (1) <= h s - mu)%Qc) by (replace (- (1))%Qc with (0 - 1)%Qc by ring; apply Qcplus_le_compat; [exact H0|now apply Qcopp_le_compat]).
    assert (A2 : (h s - mu <= 1)%Qc) by (replace 1%Qc with (1 - 0)%Qc by ring; apply Qcplus_le_compat; [exact H1|now apply Qcopp_le_compat]).
    replace ((1 + qnat k) * (1 + (1 + 1) * C))%Qc with (1 + (1 + 1) * C + qnat k * (1 + (1 + 1) * C))%Qc by ring.
    apply Qcplus_le_compat; [|apply IH; [lia|exact S]]. apply Qcplus_le_compat; [now apply square_le|].
    rewrite <- Qcmult_assoc, !(Qcmult_comm (1 + 1)). apply Qcmult_le_compat_r; [now apply prod_le|discriminate].
Qed.

Variable e : Qc.
Variable r : nat.
Variable d : Qc.
Hypothesis R : 0 < r.
Hypothesis E0 : (0 < e)%Qc.
Hypothesis E1 : (e <= 1)%Qc.
Hypothesis d0 : (0 <= d)%Qc.
Hypothesis NEAR : forall k x, In x L -> (mu - (LawSpec.power (1 - e) (k / r) + d) <= iter T k h x)%Qc /\ (iter T k h x <= mu + (LawSpec.power (1 - e) (k / r) + d))%Qc.

Lemma E_drift K k x : k <= K -> In x L -> (- (qnat r / e + qnat K * d) <= E k x)%Qc /\ (E k x <= qnat r / e + qnat K * d)%Qc.
Proof.
  intros KK X. rewrite (E_sum N N0 F c L TA h mu k x X).
  assert (B : (bigsum k (fun j => LawSpec.power (1 - e) (S j / r) + d) <= qnat r / e + qnat K * d)%Qc).
  { unfold bigsum. rewrite qsum_plus, qsum_const, seq_length. apply Qcplus_le_compat; [exact (bias_sum e r k R E0 E1)|]. apply Qcmult_le_compat_r; [now apply qnat_le|exact d0]. }
  split.
  - apply Qcle_trans with (- bigsum k (fun j => LawSpec.power (1 - e) (S j / r) + d))%Qc; [now apply Qcopp_le_compat|].
    replace (- bigsum k (fun j => LawSpec.power (1 - e) (S j / r) + d))%Qc with (- (1) * bigsum k (fun j => LawSpec.power (1 - e) (S j / r) + d))%Qc by ring. rewrite <- bigsum_mult_l.
    apply bigsum_le. intros j _. destruct (NEAR (S j) x X) as [A _]. apply -> Qcle_minus_iff in A. apply Qcle_minus_iff. eapply Qcle_trans; [exact A|]. apply Qcle_refl'. ring.
  - eapply Qcle_trans; [|exact B]. apply bigsum_le. intros j _. destruct (NEAR (S j) x X) as [_ A]. apply -> Qcle_minus_iff in A. apply Qcle_minus_iff. eapply Qcle_trans; [exact A|]. apply Qcle_refl'. ring.
Qed.

Lemma spread_drift k x : In x L -> (G k x <= qnat k * (1 + (1 + 1) * (qnat r / e + qnat k * d)))%Qc.
Proof. intros X. apply (G_upto k); auto. intros j s J S. now apply E_drift. Qed.
End Bias.

Lemma shorter {A} (p : A -> bool) l : length (filter p l) <= length l.
Proof. induction l as [|a l IH]; [reflexivity|]. cbn [filter]. destruct (p a); cbn [length]; lia. Qed.

Section Net.
Context {RD : Rounding}.
Variable b : bn.
Hypothesis SN : sampled_net b.
Variable ev : dict string.
Hypothesis ND : NoDup (dkeys ev).
Hypothesis IN : incl (dkeys ev) (bnames b).
Notation L := (possible b ev).
Notation vs := (free_vars b ev).
Variable N : nat.
Hypothesis N0 : 0 < N.
Notation NN := (qnat N * qnat N)%Qc.
Variable t : transition.
Variable full : bool.
Hypothesis F : full = true \/ vs <> [].
Notation c := (per_step t full vs).
Notation stepper := (rstepp b t full vs).
Variable order : list string.
Notation x0 := (fold_left (fun d p => dset (fst p) (snd p) d) ev []).
Notation c0 := (length (unset ev order)).
Notation init := (fsweep ev (rfone b ev) order).
Variable q : dict string.
Hypothesis QI : incl (dkeys q) (bnames b).
Variable mu : Qc.
Notation z := (fun s => ind (agrees q s) - mu)%Qc.

Lemma ryields_tally g n : forall s k chain, yields (rstep t full g b vs) n (s, k) = Ok chain ->
  qsum (map z chain) = tally stepper c z n s (dl g k (n * c)).
Proof.
  induction n as [|n IH]; intros s k chain H; cbn [yields] in H; [inversion H; reflexivity|].
  pose proof (rstep_computes b t full vs F g s k) as SC. cbv beta in SC.
  destruct (rstep t full g b vs (s, k)) as [[s1 k1]|] eqn:E1; cbn [rbind] in H; [|discriminate].
  destruct (yields _ n (s1, k1)) as [l|] eqn:Y; cbn [rbind] in H; [|discriminate]. inversion H; subst chain. cbn [map qsum fst].
  rewrite (IH s1 k1 l Y). cbn [tally Nat.mul]. unfold rfollow. rewrite dl_firstn, dl_skipn.
  destruct (stepper s (dl g k c)) as [s2|]; cbn [rbind] in SC; [|discriminate]. inversion SC; subst. reflexivity.
Qed.

Definition rrun burnIn n : rprog := rfollow c0 init (rfollow (burnIn * c) (burnp c stepper burnIn) (tally stepper c z n)).

Lemma run_hits burnIn n m l s chain : In l (streams N m) -> c0 + (burnIn + n) * c <= m ->
  rget_sample (gen l) 0 b order ev = Ok (s, c0) -> rgenerate_chain t burnIn full (gen l) b n (s, c0) (Some ev) = Ok chain -> length chain = n ->
  rrun burnIn n x0 (firstn (c0 + (burnIn * c + n * c))%nat l) = (qnat (hits q chain) - qnat n * mu)%Qc.
Proof.
  intros Hl M GS GC LC. assert (LL : length l = m) by exact (proj1 (Forall_forall _ _) (streams_length N m) l Hl).
  rewrite <- dl_gen by (rewrite LL; nia). unfold rrun, rfollow at 1. rewrite dl_firstn, dl_skipn.
  pose proof (fsweep_computes ev _ _ order (rfone_computes b ev) (gen l) x0 0 : foldM (rsample_one (gen l) b ev) order (x0, 0) = _) as IC. unfold rget_sample in GS. rewrite GS in IC.
  destruct (init x0 (dl (gen l) 0 c0)) as [s'|]; cbn [rbind] in IC; [|discriminate]. inversion IC; subst s'. clear IC. cbn [Nat.add] in *.
  unfold rgenerate_chain in GC. cbn [vars_to_change rbind] in GC.
  pose proof (burn_computes _ _ _ burnIn (rstep_computes b t full vs F) (gen l) s c0) as BC. cbv beta in BC.
  unfold rfollow. rewrite dl_firstn, dl_skipn.
  destruct (burn (rstep t full (gen l) b vs) burnIn (s, c0)) as [[s1 k1]|] eqn:B; cbn [rbind] in GC; [|discriminate].
  pose proof (eq_trans (eq_sym B) BC) as BC2. clear BC.
  destruct (burnp c stepper burnIn s (dl (gen l) c0 (burnIn * c))) as [s2|]; cbn [rbind] in BC2; [|discriminate]. inversion BC2; subst s2 k1. clear BC2.
  rewrite <- (ryields_tally (gen l) n s1 _ chain GC), tally_chain, LC. reflexivity.
Qed.

Lemma rstepper_same x y l : length l = c -> same b x y ->
  match stepper x l, stepper y l with Ok s, Ok s' => same b s s' | Err _, Err _ => True | _, _ => False end.
Proof.
  intros LL S. pose proof (rstep_same b SN t full (gen l) vs x y 0 (free_names b SN ev) S) as A.
  pose proof (rstep_computes b t full vs F (gen l) x 0) as E1. pose proof (rstep_computes b t full vs F (gen l) y 0) as E2. cbv beta in E1, E2.
  rewrite (dl_gen l c) in E1, E2 by lia. rewrite <- LL, firstn_all in E1, E2. unfold alike in A.
  destruct (rstep t full (gen l) b vs (x, 0)) as [[s k]|], (rstep t full (gen l) b vs (y, 0)) as [[s' k']|]; try contradiction;
  destruct (stepper x l), (stepper y l); cbn [rbind] in E1, E2; try discriminate; auto.
  inversion E1; inversion E2; subst. apply A.
Qed.

Lemma rtally_same n : forall x y l, length l = n * c -> same b x y -> tally stepper c z n x l = tally stepper c z n y l.
Proof.
  induction n as [|n IH]; intros x y l LL S; [reflexivity|]. cbn [tally Nat.mul] in *. unfold rfollow.
  pose proof (rstepper_same x y (firstn c l)) as A. rewrite firstn_length in A. specialize (A ltac:(lia) S).
  destruct (stepper x (firstn c l)) as [s|], (stepper y (firstn c l)) as [s'|]; try contradiction; [|reflexivity].
  rewrite (agrees_same b q s s' QI A). f_equal. apply IH; [|exact A]. rewrite skipn_length. lia.
Qed.

Lemma rburn_same_mean k0 g : (forall x y, same b x y -> g x = g y) -> forall x y, same b x y ->
  mean N (k0 * c) (burnp c stepper k0) g x = mean N (k0 * c) (burnp c stepper k0) g y.
Proof.
  intros G. induction k0 as [|k IH]; intros x y S.
  - cbn [Nat.mul burnp]. rewrite !mean_pause by exact N0. auto.
  - cbn [Nat.mul burnp]. rewrite !mean_follow by exact N0. unfold mean at 1 3. f_equal. apply qsum_map_ext. intros l Hl.
    assert (LL : length l = c) by exact (proj1 (Forall_forall _ _) (streams_length N c) l Hl). pose proof (rstepper_same x y l LL S) as A.
    destruct (stepper x l), (stepper y l); try contradiction; cbn [val]; auto.
Qed.

Hypothesis GF : gibbs_fine b ev N.
Hypothesis MF : mh_fine b ev N.
Hypothesis DF : div_fine b N.
Hypothesis VF : vs <> [] -> Nat.divide (length vs) N.
Variable r : nat.
Variable e : Qc.
Hypothesis MX : mixing b ev full r e.
Notation dr := (drift b ev N full r e).
Hypothesis ST : stochastic_bn b.
Hypothesis TO : topological b order.
Hypothesis LE : legal_ev b ev.
Hypothesis SP : starts_possible b ev.
Hypothesis MU : mu = posterior b (hard ev) q.

Lemma drift_nonneg : (0 <= dr)%Qc.
Proof.
  destruct MX as (R0 & E0 & _). apply Qcmult_nonneg; [apply Qcmult_nonneg; [discriminate|now apply delta_nonneg]|apply Qcdiv_nonneg; [apply qnat_nonneg|exact E0]].
Qed.

Lemma rrun_square burnIn n : (rmean N (c0 + (burnIn * c + n * c)) (square (rrun burnIn n)) x0 <= qnat n * (1 + (1 + 1) * (qnat r / e + qnat n * dr)))%Qc.
Proof.
  set (H := (qnat n * (1 + (1 + 1) * (qnat r / e + qnat n * dr)))%Qc). set (g := rmean N (n * c) (square (tally stepper c z n))).
  assert (EQ : rmean N (c0 + (burnIn * c + n * c)) (square (rrun burnIn n)) x0 = mean N c0 init (mean N (burnIn * c) (burnp c stepper burnIn) g) x0).
  { transitivity (rmean N (c0 + (burnIn * c + n * c)) (rfollow c0 init (rfollow (burnIn * c) (burnp c stepper burnIn) (square (tally stepper c z n)))) x0).
    - apply rmean_ext. intros l _. unfold square, rrun, rfollow. destruct (init _ _) as [s|]; [|ring]. destruct (burnp _ _ _ _ _); [reflexivity|ring].
    - rewrite (rmean_follow N N0). apply mean_ext. intros s. now rewrite (rmean_follow N N0). }
  rewrite EQ. assert (TA := total_averaging N N0 stepper c L (rounded_total b SN ev N t full F)). destruct MX as (R0 & E0 & E1 & _).
  destruct (mean_between N N0 c0 init (mean N (burnIn * c) (burnp c stepper burnIn) g) x0 0%Qc H) as [_ B]; [|exact B].
  intros l Hl. destruct (start_live b SN ev ND IN N N0 ST order TO LE SP l Hl) as (s & -> & C & S). cbn [val].
  assert (SM : forall x y, same b x y -> g x = g y).
  { intros x y XY. unfold g, rmean. f_equal. apply qsum_map_ext. intros l2 L2. unfold square. rewrite (rtally_same n x y l2); [reflexivity| |exact XY]. exact (proj1 (Forall_forall _ _) (streams_length N (n * c)) l2 L2). }
  rewrite (rburn_same_mean burnIn g SM s (canon b s) (canon_same b SN s C)), mean_burn by exact N0.
  assert (G1 : forall y, In y L -> (0 <= g y)%Qc).
  { intros y _. unfold g, rmean. apply Qcdiv_nonneg; [|now apply powc_NN_pos]. apply qsum_nonneg, Forall_forall. intros w Z. apply in_map_iff in Z as (l2 & <- & _). unfold square.
    set (a := tally stepper c z n y l2). destruct (Qclt_le_dec a 0) as [A|A]; [|now apply Qcmult_nonneg].
    replace (a * a)%Qc with ((0 + - a) * (0 + - a))%Qc by ring. apply Qclt_le_weak in A. apply -> Qcle_minus_iff in A. now apply Qcmult_nonneg. }
  assert (MR : (0 <= mu)%Qc /\ (mu <= 1)%Qc) by exact (mu_range b SN ev ND IN q mu MU (canon b s) S).
  assert (G2 : forall y, In y L -> (g y <= H)%Qc).
  { intros y Y. apply (spread_drift N N0 stepper c L TA (fun s => ind (agrees q s)) mu) with (e := e) (r := r) (d := dr); auto.
    - intros x _. destruct (agrees q x); split; discriminate.
    - exact drift_nonneg.
    - intros k x X. rewrite MU. exact (rvalue_near b SN ev ND IN N N0 GF MF DF VF t full F r e MX k q x X). }
  assert (IA := iter_avg L _ burnIn TA). split; [now apply (av_mono _ _ IA)|].
  assert (P : (0 <= iter (mean N c stepper) burnIn (fun s => (-(1)) * g s + H) (canon b s))%Qc).
  { apply (av_mono _ _ IA); [|exact S]. intros y Y. specialize (G2 y Y). apply -> Qcle_minus_iff in G2. eapply Qcle_trans; [exact G2|]. apply Qcle_refl'. ring. }
  rewrite (av_affine _ _ IA) in P by exact S. apply Qcle_minus_iff. eapply Qcle_trans; [exact P|]. apply Qcle_refl'. ring.
Qed.

Variable qs : list string.
Hypothesis QS : incl qs (bnames b).
Context {AD : Adding}.

Lemma off_square (y w u : Qc) : (0 <= u -> -(1) <= y -> y <= 1 -> -u <= w -> w <= u -> (y + w) * (y + w) <= y * y + ((1 + 1) * u + u * u))%Qc.
Proof.
  intros U Y1 Y2 W1 W2. assert (P := prod_le u y w Y1 Y2 W1 W2). assert (Q := prod_le u w w). 
  assert (SQ : (w * w <= u * u)%Qc).
  { apply Qcle_minus_iff. replace (u * u + - (w * w))%Qc with ((u + - w) * (w + - - u))%Qc by ring. apply Qcmult_nonneg; now apply -> Qcle_minus_iff. }
  replace ((y + w) * (y + w))%Qc with (y * y + ((1 + 1) * (y * w) + w * w))%Qc by ring. apply Qcplus_le_compat; [apply Qcle_refl|]. apply Qcplus_le_compat; [|exact SQ].
  rewrite !(Qcmult_comm (1 + 1)). apply Qcmult_le_compat_r; [exact P|discriminate].
Qed.

Theorem rsquare_bound burnIn n m : 0 < n -> counts_exactly n -> is_inst b qs q -> c0 + (burnIn + n) * c <= m ->
  (expectation N m (fun g => (estimate q (rmcmc_marginals t burnIn full n g b order qs ev) - mu) * (estimate q (rmcmc_marginals t burnIn full n g b order qs ev) - mu)) <=
   (1 + (1 + 1) * (qnat r / e)) / qnat n + (1 + 1) * dr + ((1 + 1) * ulp + ulp * ulp))%Qc.
Proof.
  intros n0 CE Q M. set (K := c0 + (burnIn * c + n * c)). assert (KM : K <= m) by (unfold K; nia). assert (nz : n <> 0) by lia. assert (QZ := qnat_neq0 n n0).
  assert (NP : (0 < / qnat n)%Qc) by (apply Qcinv_pos; now apply qnat_pos). assert (PP := powc_NN_pos N N0 m). assert (PK := powc_NN_pos N N0 K).
  assert (NZ : powc NN m <> 0%Qc) by (intros Z; rewrite Z in PP; now apply Qc_lt_irrefl in PP). assert (KZ : powc NN K <> 0%Qc) by (intros Z; rewrite Z in PK; now apply Qc_lt_irrefl in PK).
  set (X := fun l => square (rrun burnIn n) x0 (firstn K l)). set (U := ((1 + 1) * ulp + ulp * ulp)%Qc).
  assert (EL : forall l, In l (streams N m) -> let y := estimate q (rmcmc_marginals t burnIn full n (gen l) b order qs ev) in ((y - mu) * (y - mu) <= / qnat n * / qnat n * X l + U)%Qc).
  { intros l Hl. cbv zeta. destruct (rmcmc_frequencies b t burnIn full n (gen l) order qs ev SN (gen_ok N m l Hl) TO ND LE QS nz F CE) as (s & chain & f & GS & _ & _ & GC & LC & _ & MM & R).
    rewrite MM. cbn [estimate]. assert (P := proj2 (proj2 (proj2 (proj2 (proj2 (proj2 R)))))). rewrite (P q Q).
    unfold X, square, K. rewrite (run_hits burnIn n m l s chain Hl M GS GC LC). set (y := (qnat (hits q chain) / qnat n)%Qc).
    assert (Y0 : (0 <= y)%Qc) by (apply Qcdiv_nonneg; [apply qnat_nonneg|now apply qnat_pos]).
    assert (Y1 : (y <= 1)%Qc).
    { apply (cancel_le (qnat n)); [now apply qnat_pos|]. unfold y. replace (qnat n * (qnat (hits q chain) / qnat n))%Qc with (qnat (hits q chain)) by (field; exact QZ). rewrite Qcmult_1_r. apply qnat_le.
      unfold hits. rewrite <- LC. apply shorter. }
    destruct (rnd_near N N0 y n n0 CE Y0 Y1) as [B1 B2]. assert (MR : (0 <= mu)%Qc /\ (mu <= 1)%Qc).
    { destruct (start_live b SN ev ND IN N N0 ST order TO LE SP (firstn c0 l)) as (s' & _ & _ & S'); [apply (streams_firstn N m); [exact Hl|nia]|]. exact (mu_range b SN ev ND IN q mu MU _ S'). }
    destruct MR as [M0 M1]. replace (rnd y - mu)%Qc with ((y - mu) + (rnd y - y))%Qc by ring.
    replace (/ qnat n * / qnat n * ((qnat (hits q chain) - qnat n * mu) * (qnat (hits q chain) - qnat n * mu)))%Qc with ((y - mu) * (y - mu))%Qc by (unfold y; field; exact QZ).
    apply off_square.
    - apply ulp_nonneg.
    - replace (- (1))%Qc with (0 - 1)%Qc by ring. apply Qcplus_le_compat; [exact Y0|now apply Qcopp_le_compat].
    - replace 1%Qc with (1 - 0)%Qc by ring. apply Qcplus_le_compat; [exact Y1|now apply Qcopp_le_compat].
    - apply -> Qcle_minus_iff in B1. apply Qcle_minus_iff. eapply Qcle_trans; [exact B1|]. apply Qcle_refl'. ring.
    - apply -> Qcle_minus_iff in B2. apply Qcle_minus_iff. eapply Qcle_trans; [exact B2|]. apply Qcle_refl'. ring. }
  unfold expectation. rewrite streams_count. apply (cancel_le (powc NN m)); [exact PP|].
  match goal with |- (_ * (?S / _) <= _)%Qc => replace (powc NN m * (S / powc NN m))%Qc with S by (field; exact NZ) end.
  eapply Qcle_trans; [apply sum_le; intros l Hl; exact (EL l Hl)|]. rewrite qsum_plus, qsum_mult_l, qsum_const, streams_count. unfold X.
  rewrite (streams_prefix N K m (square (rrun burnIn n) x0) KM), (rmean_eq N N0). fold K.
  replace (powc NN (m - K) * (powc NN K * rmean N K (square (rrun burnIn n)) x0))%Qc with (powc NN m * rmean N K (square (rrun burnIn n)) x0)%Qc.
  2:{ replace m with ((m - K) + K) at 1 by lia. rewrite powc_add. ring. }
  pose proof (rrun_square burnIn n) as RS. fold K in RS. set (Z := rmean N K (square (rrun burnIn n)) x0) in *.
  replace (/ qnat n * / qnat n * (powc NN m * Z) + powc NN m * U)%Qc with (powc NN m * (/ qnat n * / qnat n * Z + U))%Qc by ring.
  apply Qcmult_le_l; [now apply Qclt_le_weak|]. apply Qcplus_le_compat; [|apply Qcle_refl].
  apply Qcle_trans with (/ qnat n * / qnat n * (qnat n * (1 + (1 + 1) * (qnat r / e + qnat n * dr))))%Qc.
  - apply Qcmult_le_l; [apply Qcmult_nonneg; now apply Qclt_le_weak|exact RS].
  - apply Qcle_refl'. generalize (qnat r / e)%Qc dr. intros a d. field. exact QZ.
Qed.
End Net.
