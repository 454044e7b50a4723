(** What rounded chains and their estimates say about the posterior. *)
From Coq Require Import Field.
From Verif Require Import Base NDArray Factor Exact Spec OrderSpec BaseFacts NDArrayFacts FactorFacts FactorSpec FactorProofs SpecFacts Sampling MCSpec MCFacts MCProof MCTop MCChain MCForward MCMarginal
  LawSpec LawCount LawKernel LawOne LawChain LawMean LawErgodic LawForward LawMCMC LawEstimate LawTop
  Rounded RoundedSpec RoundedProof RoundedTables RoundedTop RoundedDouble RoundedSample RoundedSampleSpec RoundedSampleDraw RoundedSampleOne RoundedSampleChain RoundedSampleStay
  RoundedSampleMix RoundedSampleCount RoundedSampleForward.

(** ** Runs of MCMC.marginals *)
Lemma rmcmc_frequencies {RD : Rounding} {AD : Adding} b t burnIn full n g order vs ev : sampled_net b -> rng_ok g -> topological b order ->
  NoDup (dkeys ev) -> legal_ev b ev -> incl vs (bnames b) -> n <> 0 -> full = true \/ free_vars b ev <> [] -> counts_exactly n ->
  exists init chain f, rget_sample g 0 b order ev = Ok (init, length (unset ev order)) /\ complete b init /\ keeps ev init /\
    rgenerate_chain t burnIn full g b n (init, length (unset ev order)) (Some ev) = Ok chain /\ length chain = n /\
    (forall s, In s chain -> complete b s /\ keeps ev s) /\
    rmcmc_marginals t burnIn full n g b order vs ev = Ok f /\
    reports b f vs (fun q => rnd (qnat (hits q chain) / qnat n)%Qc).
Proof.
  intros SN RG TO ND LE IV NZ FU CE. pose proof (sn_bn b SN) as WB.
  destruct (rsample_total b SN ev order TO g RG ND LE) as (init & GS & C & K & _). set (k := length (unset ev order)) in *.
  assert (CH : exists chain, rgenerate_chain t burnIn full g b n (init, k) (Some ev) = Ok chain /\ length chain = n /\ (forall s, In s chain -> complete b s /\ keeps ev s)).
  { unfold rgenerate_chain. cbn [vars_to_change rbind].
    destruct (burn_moves b SN ev t full g (free_vars b ev) (fun s => keeps ev s) burnIn RG (incl_refl _) FU (stays_keeps b SN ev) init k C K) as (s & E & C1 & K1 & _). rewrite E. cbn [rbind].
    destruct (yields_moves b SN ev t full g (free_vars b ev) (fun s => keeps ev s) n RG (incl_refl _) FU (stays_keeps b SN ev) s (k + burnIn * per_step t full (free_vars b ev)) C1 K1) as (l & E2 & LN & A).
    exists l. split; [exact E2|]. split; [exact LN|]. intros z Z. destruct (A z Z) as (A1 & A2 & _). auto. }
  destruct CH as (chain & GC & L & F).
  destruct (collect_values b WB vs [] IV) as (vv & EV & NV & KV & HV); [discriminate|constructor|].
  assert (VN : forall v l, In (v, l) vv -> In v (bnames b) /\ l = values_of b v).
  { intros v l Hl. pose proof (In_dget v l vv NV Hl) as D. split; [|now apply HV]. apply IV.
    apply dget_Some_key, KV in D. destruct D as [[]|D]; exact D. }
  destruct (samples_named vv chain) as (f & FS & G & VO & FV & SUM & POT).
  - exact NV.
  - intros v l Hl. destruct (VN v l Hl) as [Hv ->]. destruct (node_of b SN v Hv) as (n' & _ & _ & _ & -> & _ & Q). exact Q.
  - intros ->. cbn in L. now subst.
  - intros s Hs v l Hl. destruct (VN v l Hl) as [Hv ->]. now apply (proj1 (F s Hs)).
  - exists init, chain, (mkF (amap rnd (pot f)) (vorder f) (fvals f)). do 6 (split; [assumption|]). split.
    { unfold rmcmc_marginals. rewrite GS. cbn [rbind]. rewrite EV. cbn [rbind]. rewrite GC. cbn [rbind]. rewrite rfrom_samples_eq by (rewrite L; exact CE). now rewrite FS. }
    assert (VS : forall v, In v (vorder f) <-> In v vs) by (intros v; rewrite VO, KV; cbn; tauto).
    assert (DV : forall v, In v (vorder f) -> dget v (fvals f) = Some (values_of b v)).
    { intros v Hv. rewrite VO in Hv. rewrite FV. destruct (dget_key v vv Hv) as (l & D). rewrite D. f_equal. now apply HV. }
    split; [apply G|]. split; [exact VS|]. split; [exact DV|]. split; [apply G|]. split.
    { cbn [pot amap shape vorder]. rewrite (gf_shape _ G). apply map_ext_in. intros v Hv. unfold fvalues. now rewrite (DV v Hv). }
    split; [unfold wfa; cbn [pot amap data shape]; rewrite map_length; apply G|]. intros q (Q1 & Q2 & Q3). rewrite potential_rnd. f_equal. rewrite POT.
    + rewrite L. reflexivity.
    + exact Q1.
    + intros v. rewrite Q2, <- VS, VO. tauto.
    + intros v Hv. assert (Hq : In v (dkeys q)) by (apply Q2, VS, Hv). destruct (dget_key v q Hq) as (x & D). exists x.
      split; [exact D|]. unfold fvalues. rewrite (DV v Hv). apply (Q3 v x). now apply dget_In.
Qed.

Section Top.
Context {RD : Rounding}.
Variable b : bn.
Hypothesis SN : sampled_net b.
Variable ev : dict string.
Hypothesis ND : NoDup (dkeys ev).
Hypothesis IN : incl (dkeys ev) (bnames b).
Notation L := (possible b ev).
Notation W := (worlds b ev).
Notation vs := (free_vars b ev).
Variable N : nat.
Hypothesis N0 : 0 < N.
Notation NN := (qnat N * qnat N)%Qc.
Variable t : transition.
Variable full : bool.
Hypothesis F : full = true \/ vs <> [].
Notation c := (per_step t full vs).
Notation rstepm := (mean N c (rstepp b t full vs)).

Lemma rburn_value k q x l : k * c <= length l ->
  val (fun s => ind (agrees q s)) (burnp c (rstepp b t full vs) k x (firstn (k * c) l)) =
  match burn (rstep t full (gen l) b vs) k (x, 0) with Ok (s, _) => ind (agrees q s) | Err _ => 0%Qc end.
Proof.
  intros LL. pose proof (burn_computes _ _ _ k (rstep_computes b t full vs F) (gen l) x 0) as BC. cbv beta in BC.
  symmetry. etransitivity; [exact (f_equal (fun r => match r with Ok (s, _) => ind (agrees q s) | Err _ => 0%Qc end) BC)|].
  clear BC. rewrite (dl_gen l (k * c)) by lia. destruct (burnp _ _ _ x _); reflexivity.
Qed.

Lemma stream_length m l : In l (streams N m) -> length l = m.
Proof. intros H. exact (proj1 (Forall_forall _ _) (streams_length N m) l H). Qed.

Lemma rchain_value burnIn n j q m x : complete b x -> keeps ev x -> j < n -> (burnIn + S j) * c <= m ->
  chance N m (fun g => shows q j (rgenerate_chain t burnIn full g b n (x, 0%nat) (Some ev))) = iter rstepm (burnIn + S j) (fun s => ind (agrees q s)) x.
Proof.
  intros C K J M. set (h := fun s => ind (agrees q s)). set (k := burnIn + S j) in *. rewrite <- (mean_burn N N0). symmetry. apply mean_eq; [exact N0|].
  destruct (chance_sum N m (fun g => shows q j (rgenerate_chain t burnIn full g b n (x, 0%nat) (Some ev)))) as [E|E]; [|lia].
  apply (Qcmult_cancel (powc NN (m - k * c))); [apply powc_neq0, NN_neq0; exact N0|].
  rewrite <- (streams_prefix N (k * c) m (fun l => val h (burnp c (rstepp b t full vs) k x l)) M).
  rewrite Qcmult_assoc, <- powc_add. replace (m - k * c + k * c) with m by lia. rewrite Qcmult_comm. etransitivity; [|symmetry; exact E].
  apply qsum_map_ext. intros l Hl. unfold h. rewrite rburn_value by (rewrite (stream_length m l Hl); exact M).
  unfold rgenerate_chain. cbn [vars_to_change rbind].
  destruct (burn_moves b SN ev t full (gen l) vs (fun _ => True) (burnIn + n) (gen_ok N m l Hl) (incl_refl _) F (fun _ _ _ _ _ _ => Logic.I) x 0 C Logic.I) as (s & B & _).
  rewrite (shows_at _ burnIn n j _ _ q B J). fold k. destruct (burn _ k (x, 0)) as [[s' k']|]; reflexivity.
Qed.

Hypothesis GF : gibbs_fine b ev N.
Hypothesis MF : mh_fine b ev N.
Hypothesis DF : div_fine b N.
Hypothesis VF : vs <> [] -> Nat.divide (length vs) N.
Variable r : nat.
Variable e : Qc.
Hypothesis MX : mixing b ev full r e.
Notation dr := (drift b ev N full r e).

Lemma rchain_near burnIn n j q m x : In x L -> j < n -> (burnIn + S j) * c <= m ->
  let C := chance N m (fun g => shows q j (rgenerate_chain t burnIn full g b n (x, 0%nat) (Some ev))) in
  let p := (LawSpec.power (1 - e) ((burnIn + S j) / r) + dr)%Qc in
  (posterior b (hard ev) q - p <= C)%Qc /\ (C <= posterior b (hard ev) q + p)%Qc.
Proof.
  intros X J M. cbv zeta. assert (X' := live_world b ev x X).
  rewrite (rchain_value burnIn n j q m x (worlds_complete b SN ev x X') (worlds_keep b SN ev x IN X') J M). now apply rvalue_near.
Qed.

(** ** The estimates *)
Hypothesis ST : stochastic_bn b.
Variable order : list string.
Hypothesis TO : topological b order.
Hypothesis LE : legal_ev b ev.
Hypothesis SP : starts_possible b ev.
Variable qs : list string.
Hypothesis QS : incl qs (bnames b).
Notation x0 := (fold_left (fun d p => dset (fst p) (snd p) d) ev []).
Notation c0 := (length (unset ev order)).
Notation init := (fsweep ev (rfone b ev) order).

Lemma mean_between k Fp f x lo hi : (forall l, In l (streams N k) -> lo <= val f (Fp x l) /\ val f (Fp x l) <= hi)%Qc -> (lo <= mean N k Fp f x /\ mean N k Fp f x <= hi)%Qc.
Proof.
  intros H. split; (apply (cancel_le (powc NN k)); [now apply powc_NN_pos|]); rewrite <- eq_mean, <- streams_count, <- qsum_const by exact N0; apply sum_le; intros l Hl; now apply H.
Qed.

Lemma rburn_canon k q s : incl (dkeys q) (bnames b) -> complete b s ->
  mean N (k * c) (burnp c (rstepp b t full vs) k) (fun s => ind (agrees q s)) s = mean N (k * c) (burnp c (rstepp b t full vs) k) (fun s => ind (agrees q s)) (canon b s).
Proof.
  intros I C. unfold mean. f_equal. apply qsum_map_ext. intros l Hl. pose proof (stream_length _ l Hl) as LL.
  rewrite <- (firstn_all l) at 1 2. rewrite LL. rewrite !rburn_value by lia.
  pose proof (rburn_same b SN t full (gen l) vs k (free_names b SN ev) s (canon b s) 0 (canon_same b SN s C)) as A.
  destruct (burn _ k (s, 0)) as [[s1 k1]|], (burn _ k (canon b s, 0)) as [[s2 k2]|]; cbn [alike] in A; try contradiction; [|reflexivity].
  destruct A as [A _]. f_equal. now apply (agrees_same b).
Qed.

Lemma start_live l : In l (streams N c0) -> exists s, init x0 l = Ok s /\ complete b s /\ In (canon b s) L.
Proof.
  intros Hl. destruct (rsample_total b SN ev order TO (gen l) (gen_ok N c0 l Hl) ND LE) as (s & E & C & K & P).
  pose proof (fsweep_computes ev _ _ order (rfone_computes b ev) (gen l) x0 0 : foldM (rsample_one (gen l) b ev) order (x0, 0) = _) as R. unfold rget_sample in E. rewrite E in R.
  pose proof (stream_length _ l Hl) as LL. rewrite dl_gen in R by lia. rewrite firstn_all2 in R by lia.
  destruct (init x0 l) as [s'|]; cbn [rbind] in R; [|discriminate]. inversion R; subst s'. exists s. split; [reflexivity|]. split; [exact C|].
  assert (CW : In (canon b s) W) by now apply canon_worlds. apply live_spec. split; [exact CW|]. apply SP; [exact CW|]. intros n Hn NE.
  rewrite (entry_ext n (canon b s) s).
  - apply P; auto. intros k. apply (gen_positive N c0 l Hl).
  - intros v V. unfold look. rewrite (canon_same b SN s C v); [reflexivity|]. now apply (fam_names b (sn_bn b SN) n).
Qed.

Definition shown_at (k : nat) (q : dict string) (l : list (Qc * nat)) : Qc :=
  val (fun s => ind (agrees q s)) (follow c0 init (burnp c (rstepp b t full vs) k) x0 (firstn (c0 + k * c) l)).

Lemma shown_near k q m : incl (dkeys q) (bnames b) -> c0 + k * c <= m ->
  let p := (LawSpec.power (1 - e) (k / r) + dr)%Qc in
  (powc NN m * (posterior b (hard ev) q - p) <= qsum (map (shown_at k q) (streams N m)) /\ qsum (map (shown_at k q) (streams N m)) <= powc NN m * (posterior b (hard ev) q + p))%Qc.
Proof.
  intros I M. cbv zeta. unfold shown_at. set (h := fun s => ind (agrees q s)).
  rewrite (streams_prefix N (c0 + k * c) m (fun l => val h (follow c0 init (burnp c (rstepp b t full vs) k) x0 l)) M).
  rewrite (eq_mean N N0), Qcmult_assoc, <- powc_add. replace (m - (c0 + k * c) + (c0 + k * c)) with m by lia. rewrite mean_follow by exact N0.
  destruct (mean_between c0 init (mean N (k * c) (burnp c (rstepp b t full vs) k) h) x0
    (posterior b (hard ev) q - (LawSpec.power (1 - e) (k / r) + dr))%Qc (posterior b (hard ev) q + (LawSpec.power (1 - e) (k / r) + dr))%Qc) as [A B].
  - intros l Hl. destruct (start_live l Hl) as (s & -> & C & S1). cbn [val]. unfold h. rewrite rburn_canon by assumption. rewrite mean_burn by exact N0. now apply rvalue_near.
  - split; apply Qcmult_le_l; auto; apply Qclt_le_weak; now apply powc_NN_pos.
Qed.

Lemma hits_shown burnIn n q m l s chain : In l (streams N m) -> c0 + (burnIn + n) * c <= m ->
  rget_sample (gen l) 0 b order ev = Ok (s, c0) -> rgenerate_chain t burnIn full (gen l) b n (s, c0) (Some ev) = Ok chain -> length chain = n ->
  qnat (hits q chain) = bigsum n (fun j => shown_at (burnIn + S j) q l).
Proof.
  intros Hl M GS GC LC. rewrite hits_positions, LC. unfold bigsum. apply qsum_map_ext. intros j J. apply in_seq in J.
  unfold rgenerate_chain in GC. cbn [vars_to_change rbind] in GC. destruct (burn _ burnIn (s, c0)) as [a|] eqn:B; cbn [rbind] in GC; [|discriminate].
  destruct (yields_burn N N0 _ _ _ _ GC j) as (st & k2 & A1 & A2); [lia|].
  pose proof (computes_seq _ _ _ _ _ _ (fsweep_computes ev _ _ order (rfone_computes b ev)) (burn_computes _ _ _ (burnIn + S j) (rstep_computes b t full vs F)) (gen l) x0 0) as BC. cbv beta in BC.
  unfold rget_sample in GS. match type of GS with ?u = _ => match type of BC with context[foldM ?f ?o ?a] => change (foldM f o a) with u in BC end end. rewrite GS in BC. cbn [rbind] in BC.
  rewrite dl_gen in BC by (rewrite (stream_length m l Hl); nia).
  match type of BC with ?u = _ => change u with (burn (rstep t full (gen l) b vs) (burnIn + S j) (s, c0)) in BC end. rewrite burn_add, B in BC. cbn [rbind] in BC. rewrite A2 in BC.
  unfold shown_at. destruct (follow _ _ _ x0 _) as [s'|]; cbn [rbind] in BC; [|discriminate]. inversion BC; subst. cbn [val shows]. now rewrite A1.
Qed.

Lemma rnd_near h n : 0 < n -> counts_exactly n -> (0 <= h)%Qc -> (h <= 1)%Qc -> (h - ulp <= rnd h /\ rnd h <= h + ulp)%Qc.
Proof.
  intros n0 CE H0 H1. assert (R1 : rnd 1%Qc = 1%Qc) by (apply (CE 1); lia). assert (RL : (rnd h <= 1)%Qc) by (rewrite <- R1; apply rnd_mono; assumption).
  assert (U := ulp_nonneg). assert (R0 : (0 <= rnd h)%Qc) by (rewrite <- rnd_zero; apply rnd_mono; [apply Qcle_refl|exact H0]). split.
  - apply Qcle_minus_iff. replace (rnd h + - (h - ulp))%Qc with (rnd h + ulp + - h)%Qc by ring. rewrite <- Qcle_minus_iff. eapply Qcle_trans; [apply rnd_above; exact H0|].
    replace ((1 + ulp) * rnd h)%Qc with (rnd h + ulp * rnd h)%Qc by ring. apply Qcplus_le_compat; [apply Qcle_refl|]. rewrite <- (Qcmult_1_r ulp) at 2. now apply Qcmult_le_l.
  - eapply Qcle_trans; [apply rnd_below; exact H0|]. replace ((1 + ulp) * h)%Qc with (h + ulp * h)%Qc by ring. apply Qcplus_le_compat; [apply Qcle_refl|]. rewrite <- (Qcmult_1_r ulp) at 2. now apply Qcmult_le_l.
Qed.

Context {AD : Adding}.

Lemma shown_range k q l : (0 <= shown_at k q l)%Qc /\ (shown_at k q l <= 1)%Qc.
Proof. unfold shown_at. destruct (follow _ _ _ _ _) as [s|]; cbn [val]; [destruct (agrees q s)|]; split; discriminate. Qed.

Theorem restimate_near burnIn n q m : 0 < n -> counts_exactly n -> is_inst b qs q -> c0 + (burnIn + n) * c <= m ->
  let E := expectation N m (fun g => estimate q (rmcmc_marginals t burnIn full n g b order qs ev)) in
  let p := (LawSpec.power (1 - e) (burnIn / r) + dr + ulp)%Qc in
  (posterior b (hard ev) q - p <= E)%Qc /\ (E <= posterior b (hard ev) q + p)%Qc.
Proof.
  intros n0 CE Q M. cbv zeta. assert (nz : n <> 0) by lia. assert (Q0 : qnat n <> 0%Qc) by now apply qnat_neq0. assert (QP : (0 < / qnat n)%Qc) by (apply Qcinv_pos; now apply qnat_pos).
  assert (IQ : incl (dkeys q) (bnames b)) by (intros v V; apply QS; now apply Q).
  set (A := fun l => (/ qnat n * bigsum n (fun j => shown_at (burnIn + S j) q l))%Qc).
  assert (ES : forall l, In l (streams N m) -> (A l - ulp <= estimate q (rmcmc_marginals t burnIn full n (gen l) b order qs ev) /\ estimate q (rmcmc_marginals t burnIn full n (gen l) b order qs ev) <= A l + ulp)%Qc).
  { intros l Hl. destruct (rmcmc_frequencies b t burnIn full n (gen l) order qs ev SN (gen_ok N m l Hl) TO ND LE QS nz F CE) as (s & chain & f & GS & _ & _ & GC & LC & _ & MM & R).
    rewrite MM. cbn [estimate]. assert (P := proj2 (proj2 (proj2 (proj2 (proj2 (proj2 R)))))). rewrite (P q Q), (hits_shown burnIn n q m l s chain Hl M GS GC LC).
    unfold Qcdiv. rewrite Qcmult_comm. fold (A l). apply (rnd_near (A l) n n0 CE).
    - apply Qcmult_nonneg; [now apply Qclt_le_weak|]. apply bigsum_nonneg. intros j _. apply shown_range.
    - unfold A. apply (cancel_le (qnat n)); [now apply qnat_pos|]. rewrite Qcmult_assoc, Qcmult_inv_r, Qcmult_1_l by exact Q0. unfold bigsum.
      eapply Qcle_trans; [apply sum_le; intros j _; apply shown_range|]. rewrite qsum_const, seq_length. apply Qcle_refl. }
  assert (AM : (powc NN m * (posterior b (hard ev) q - (LawSpec.power (1 - e) (burnIn / r) + dr)) <= qsum (map A (streams N m)) /\
                qsum (map A (streams N m)) <= powc NN m * (posterior b (hard ev) q + (LawSpec.power (1 - e) (burnIn / r) + dr)))%Qc).
  { unfold A. rewrite qsum_mult_l. unfold bigsum. rewrite qsum_swap. destruct MX as (R0 & E0 & E1 & _).
    assert (PW : forall j, (LawSpec.power (1 - e)%Qc ((burnIn + S j) / r) <= LawSpec.power (1 - e)%Qc (burnIn / r))%Qc).
    { intros j. apply power_antitone.
      - apply -> Qcle_minus_iff. exact E1.
      - apply Qcle_minus_iff. replace (1 + - (1 - e))%Qc with e by ring. now apply Qclt_le_weak.
      - apply Nat.div_le_mono; lia. }
    assert (P0 := Qclt_le_weak _ _ (powc_NN_pos N N0 m)).
    split; (apply (cancel_le (qnat n)); [now apply qnat_pos|]); rewrite (Qcmult_assoc (qnat n) (/ qnat n)), Qcmult_inv_r, Qcmult_1_l by exact Q0.
    - rewrite <- (seq_length n 0) at 1. rewrite <- qsum_const. apply sum_le. intros j J. apply in_seq in J.
      eapply Qcle_trans; [|apply (shown_near (burnIn + S j) q m IQ ltac:(nia))]. apply Qcmult_le_l; [exact P0|]. apply Qcplus_le_compat; [apply Qcle_refl|]. apply Qcopp_le_compat.
      apply Qcplus_le_compat; [apply PW|apply Qcle_refl].
    - rewrite <- (seq_length n 0) at 2. rewrite <- qsum_const. apply sum_le. intros j J. apply in_seq in J.
      eapply Qcle_trans; [apply (shown_near (burnIn + S j) q m IQ ltac:(nia))|]. apply Qcmult_le_l; [exact P0|]. apply Qcplus_le_compat; [apply Qcle_refl|].
      apply Qcplus_le_compat; [apply PW|apply Qcle_refl]. }
  destruct AM as [AL AU]. set (B := (LawSpec.power (1 - e) (burnIn / r) + dr)%Qc) in *. unfold expectation. rewrite streams_count. set (Z := qsum (map (fun l => estimate q (rmcmc_marginals t burnIn full n (gen l) b order qs ev)) (streams N m))).
  assert (PP := powc_NN_pos N N0 m). assert (PN : powc NN m <> 0%Qc) by (apply powc_neq0, NN_neq0; exact N0).
  assert (ZL : (qsum (map A (streams N m)) + - (powc NN m * ulp) <= Z)%Qc).
  { unfold Z. rewrite <- streams_count. replace (- (qnat (length (streams N m)) * ulp))%Qc with (qnat (length (streams N m)) * - ulp)%Qc by ring. rewrite <- qsum_const, <- qsum_plus. apply sum_le. intros l Hl. now apply ES. }
  assert (ZU : (Z <= qsum (map A (streams N m)) + powc NN m * ulp)%Qc).
  { unfold Z. rewrite <- streams_count. rewrite <- qsum_const, <- qsum_plus. apply sum_le. intros l Hl. now apply ES. }
  split; (apply (cancel_le (powc NN m)); [exact PP|]); replace (powc NN m * (Z / powc NN m))%Qc with Z by (field; exact PN).
  - eapply Qcle_trans; [|exact ZL]. replace (powc NN m * (posterior b (hard ev) q - (B + ulp)))%Qc with (powc NN m * (posterior b (hard ev) q - B) + - (powc NN m * ulp))%Qc by ring.
    apply Qcplus_le_compat; [exact AL|apply Qcle_refl].
  - eapply Qcle_trans; [exact ZU|]. replace (powc NN m * (posterior b (hard ev) q + (B + ulp)))%Qc with (powc NN m * (posterior b (hard ev) q + B) + powc NN m * ulp)%Qc by ring.
    apply Qcplus_le_compat; [exact AU|apply Qcle_refl].
Qed.
End Top.
