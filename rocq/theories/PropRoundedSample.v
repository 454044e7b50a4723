(** C83: sampling in rounded arithmetic. *)
From Coq Require Import ZArith Field.
From Verif Require Import Base BaseFacts NDArray NDArrayFacts Factor Exact Spec OrderSpec FactorFacts FactorProofs Checks Instances ExampleNets Sampling MCSpec MCFacts MCProof MCTop MCChain MCForward MCChecks
  LawSpec LawCount LawKernel LawOne LawChain LawMean LawErgodic LawForward LawMCMC LawEstimate LawTop LawLarge LawSpread LawLinked
  Rounded RoundedSpec RoundedProof RoundedTop RoundedDouble RoundedSample RoundedSampleSpec RoundedSampleDraw RoundedSampleOne RoundedSampleChain RoundedSampleStay
  RoundedSampleMix RoundedSampleCount RoundedSampleForward RoundedSampleTop RoundedSampleSpread RoundedSampleLimit RoundedWhole PropLaw.

(** Without rounding the program is that of Sampling.v. *)
Theorem C83_same_program :
  (forall t burnIn full g b n init ev, @rgenerate_chain unrounded t burnIn full g b n init ev = generate_chain t burnIn full g b n init ev) /\
  (forall g k b order ev, @rget_sample unrounded g k b order ev = get_sample g k b order ev) /\
  (forall (AD : Adding) t burnIn full n g b order vs ev, @rmcmc_marginals unrounded AD t burnIn full n g b order vs ev = mcmc_marginals t burnIn full n g b order vs ev).
Proof. split; [exact exact_chain|]. split; [exact exact_sample|exact exact_marginals]. Qed.

(** ** With the same random numbers, the run in rounded arithmetic is the run in
    exact arithmetic, except with a small probability. *)
Theorem C83_chain_same {RD : Rounding} b t burnIn full n x ev N m : 0 < N -> nonneg_bn b -> (burnIn + n) * per_step t full (free_vars b ev) <= m ->
  (chance N m (fun g => differ_runs (rgenerate_chain t burnIn full g b n (x, 0%nat) (Some ev)) (generate_chain t burnIn full g b n (x, 0%nat) (Some ev))) <=
   qnat ((burnIn + n) * updates full (free_vars b ev)) * slip b N)%Qc.
Proof. intros N0 NN. now apply runs_agree. Qed.

Theorem C83_sample_same {RD : Rounding} b order ev N m : 0 < N -> nonneg_bn b -> length (filter (fun v => negb (dmem v ev)) order) <= m ->
  (chance N m (fun g => differ_samples (rget_sample g 0 b order ev) (get_sample g 0 b order ev)) <=
   qnat (length (filter (fun v => negb (dmem v ev)) order)) * slip b N)%Qc.
Proof. intros N0 NN M. now apply (samples_agree b NN ev N N0 order m). Qed.

(** What the runs differ by is exactly this. *)
Theorem C83_differ : (forall a b, differ_runs a b = true <-> a <> b) /\ (forall a b, differ_samples a b = true <-> a <> b).
Proof.
  split; intros a b; [unfold differ_runs; destruct (res_dec (list_eq_dec state_dec) a b)|unfold differ_samples; destruct (res_dec sample_dec a b)]; split; intros H; try discriminate H; try reflexivity; try assumption; now destruct H.
Qed.

(** ** No run fails, and none enters an impossible state: whatever the rounding. *)
Theorem C83_chain {RD : Rounding} b ev t burnIn full g n x : sampled_net b -> rng_ok g -> full = true \/ free_vars b ev <> [] -> complete b x -> keeps ev x ->
  exists l, rgenerate_chain t burnIn full g b n (x, 0%nat) (Some ev) = Ok l /\ length l = n /\
    forall s, In s l -> complete b s /\ keeps ev s /\ ((forall k, (0 < unif g k)%Qc) -> (0 < joint b x)%Qc -> (0 < joint b s)%Qc).
Proof. intros SN. now apply chain_moves. Qed.

Theorem C83_sample {RD : Rounding} b ev order g : sampled_net b -> topological b order -> rng_ok g -> NoDup (dkeys ev) -> legal_ev b ev ->
  exists st, rget_sample g 0 b order ev = Ok (st, length (filter (fun v => negb (dmem v ev)) order)) /\ complete b st /\ keeps ev st /\
    ((forall k, (0 < unif g k)%Qc) -> stochastic_bn b -> forall n, In n (bnodes b) -> ~ In (dn_name n) (dkeys ev) -> (0 < entry n st)%Qc).
Proof. intros SN TO. now apply rsample_total. Qed.

(** MCMC.marginals counts without error and divides once, as long as the arithmetic
    can count that far. *)
Theorem C83_frequencies {RD : Rounding} {AD : Adding} b t burnIn full n g order vs ev : sampled_net b -> rng_ok g -> topological b order -> NoDup (dkeys ev) -> legal_ev b ev ->
  incl vs (bnames b) -> n <> 0 -> full = true \/ free_vars b ev <> [] -> counts_exactly n ->
  let k := length (filter (fun v => negb (dmem v ev)) order) in
  exists init chain f, rget_sample g 0 b order ev = Ok (init, k) /\ rgenerate_chain t burnIn full g b n (init, k) (Some ev) = Ok chain /\ length chain = n /\
    (forall s, In s chain -> complete b s /\ keeps ev s) /\ rmcmc_marginals t burnIn full n g b order vs ev = Ok f /\
    reports b f vs (fun q => rnd (qnat (hits q chain) / qnat n)%Qc).
Proof.
  intros SN G TO ND LE VS NZ F C. destruct (rmcmc_frequencies b t burnIn full n g order vs ev SN G TO ND LE VS NZ F C) as (i & l & f & A & _ & _ & B & D & E & H & R).
  exists i, l, f. repeat (split; [assumption|]). exact R.
Qed.

(** Doubles count up to 2^53. *)
Theorem C83_counts n : @counts_exactly double n <-> (Z.of_nat n <= 2 ^ 53)%Z.
Proof.
  split; [|exact (double_counts n)]. intros C. destruct (Z_le_gt_dec (Z.of_nat n) (2 ^ 53)) as [L|L]; [exact L|]. destruct (double_counts_not n (Z.gt_lt _ _ L) C).
Qed.

(** ** The long run: the distance to the posterior is that of C52 plus a term that does
    not grow with the length of the run.  [D], [r] and [e] belong to the network and the
    evidence, not to the rounding. *)
Theorem C83_posterior b ev full : sampled_net b -> connected b ev -> NoDup (dkeys ev) -> incl (dkeys ev) (bnames b) -> full = true \/ free_vars b ev <> [] ->
  exists D r e, 0 < D /\ 0 < r /\ (0 < e)%Qc /\ (e <= 1)%Qc /\ forall (RD : Rounding) N t burnIn n j q m x, 0 < N -> Nat.divide D N -> In x (possible b ev) -> j < n ->
    (burnIn + S j) * per_step t full (free_vars b ev) <= m ->
    let p := chance N m (fun g => shows q j (rgenerate_chain t burnIn full g b n (x, 0%nat) (Some ev))) in
    let d := (LawSpec.power (1 - e) ((burnIn + S j) / r)%nat + (1 + 1) * (qnat (updates full (free_vars b ev)) * slip b N) * (qnat r / e))%Qc in
    (posterior b (hard ev) q - d <= p)%Qc /\ (p <= posterior b (hard ev) q + d)%Qc.
Proof.
  intros SN CO ND IN F. destruct (all_some b SN ev) as (D & P & H). destruct (mixing_connected b SN ev full CO F) as (r & e & MX).
  exists D, r, e. split; [exact P|]. split; [apply MX|]. split; [apply MX|]. split; [apply MX|]. intros RD N t burnIn n j q m x N0 DN X J M.
  destruct (H N DN) as (GF & MF & DF & VF). now apply (rchain_near b SN ev ND IN N N0 t full F GF MF DF VF r e MX).
Qed.

Theorem C83_estimate b ev order vs full : sampled_net b -> stochastic_bn b -> connected b ev -> starts_possible b ev -> topological b order -> NoDup (dkeys ev) ->
  legal_ev b ev -> incl (dkeys ev) (bnames b) -> incl vs (bnames b) -> full = true \/ free_vars b ev <> [] ->
  exists D r e, 0 < D /\ 0 < r /\ (0 < e)%Qc /\ (e <= 1)%Qc /\ forall (RD : Rounding) (AD : Adding) N t burnIn n q m, 0 < N -> Nat.divide D N -> 0 < n -> counts_exactly n ->
    is_inst b vs q -> length (filter (fun v => negb (dmem v ev)) order) + (burnIn + n) * per_step t full (free_vars b ev) <= m ->
    let p := expectation N m (fun g => estimate q (rmcmc_marginals t burnIn full n g b order vs ev)) in
    let d := (LawSpec.power (1 - e) (burnIn / r)%nat + (1 + 1) * (qnat (updates full (free_vars b ev)) * slip b N) * (qnat r / e) + ulp)%Qc in
    (posterior b (hard ev) q - d <= p)%Qc /\ (p <= posterior b (hard ev) q + d)%Qc.
Proof.
  intros SN ST CO SP TO ND LE IN VS F. destruct (all_some b SN ev) as (D & P & H). destruct (mixing_connected b SN ev full CO F) as (r & e & MX).
  exists D, r, e. split; [exact P|]. split; [apply MX|]. split; [apply MX|]. split; [apply MX|]. intros RD AD N t burnIn n q m N0 DN n0 C Q M.
  destruct (H N DN) as (GF & MF & DF & VF). now apply (restimate_near b SN ev ND IN N N0 t full F GF MF DF VF r e MX ST order TO LE SP vs VS (AD := AD)).
Qed.

(** The added term is linear in the error of one operation, ... *)
Theorem C83_size {RD : Rounding} b N : (qnat (2 * draw_errors b) * ulp <= 1 / (1 + 1))%Qc ->
  (slip b N <= qnat (widest b) * ((1 + 1) * (qnat (2 * draw_errors b) * ulp) + / qnat N))%Qc.
Proof. exact (slip_linear b N). Qed.

(** ... so every accuracy can be had with fine arithmetic, fine random numbers and
    enough steps; the arithmetic need not get finer with the number of steps. *)
Theorem C83_limit b ev full delta : sampled_net b -> connected b ev -> NoDup (dkeys ev) -> incl (dkeys ev) (bnames b) -> full = true \/ free_vars b ev <> [] -> (0 < delta)%Qc ->
  exists D A K, 0 < D /\ 0 < A /\ forall (RD : Rounding) N t burnIn n j q m x, (ulp <= / qnat A)%Qc -> A <= N -> Nat.divide D N -> K <= burnIn -> In x (possible b ev) -> j < n ->
    (burnIn + S j) * per_step t full (free_vars b ev) <= m ->
    let p := chance N m (fun g => shows q j (rgenerate_chain t burnIn full g b n (x, 0%nat) (Some ev))) in
    (posterior b (hard ev) q - delta <= p)%Qc /\ (p <= posterior b (hard ev) q + delta)%Qc.
Proof.
  intros SN CO ND IN F DE. destruct (C83_posterior b ev full SN CO ND IN F) as (D & r & e & P & r0 & e0 & e1 & H).
  assert (HD : (0 < delta / (1 + 1))%Qc) by (apply Qcmult_pos; [exact DE|reflexivity]).
  destruct (power_small e _ e0 e1 HD) as (K & HK). destruct (drift_small b ev full r e _ e0 HD) as (A & A0 & HA). exists D, A, (K * r). split; [exact P|]. split; [exact A0|].
  intros RD N t burnIn n j q m x U AN DN KB X J M. cbv zeta. assert (N0 : 0 < N) by lia. destruct (H RD N t burnIn n j q m x N0 DN X J M) as [B C]. cbv zeta in B, C.
  assert (KL : K <= (burnIn + S j) / r) by (apply Nat.div_le_lower_bound; nia). assert (S := Qcplus_le_compat _ _ _ _ (HK _ KL) (HA RD N U AN)).
  replace (delta / (1 + 1) + delta / (1 + 1))%Qc with delta in S by (field; discriminate). unfold drift in S. split.
  - eapply Qcle_trans; [|exact B]. apply Qcplus_le_compat; [apply Qcle_refl|now apply Qcopp_le_compat].
  - eapply Qcle_trans; [exact C|]. apply Qcplus_le_compat; [apply Qcle_refl|exact S].
Qed.

(** ** The estimates spread as in C53, up to the same term. *)
Theorem C83_squared_error b ev order vs full : sampled_net b -> stochastic_bn b -> connected b ev -> starts_possible b ev -> topological b order -> NoDup (dkeys ev) ->
  legal_ev b ev -> incl (dkeys ev) (bnames b) -> incl vs (bnames b) -> full = true \/ free_vars b ev <> [] ->
  exists D r e, 0 < D /\ 0 < r /\ (0 < e)%Qc /\ (e <= 1)%Qc /\ forall (RD : Rounding) (AD : Adding) N t burnIn n q m, 0 < N -> Nat.divide D N -> 0 < n -> counts_exactly n ->
    is_inst b vs q -> length (filter (fun v => negb (dmem v ev)) order) + (burnIn + n) * per_step t full (free_vars b ev) <= m ->
    let err g := (estimate q (rmcmc_marginals t burnIn full n g b order vs ev) - posterior b (hard ev) q)%Qc in
    (expectation N m (fun g => err g * err g) <=
     (1 + (1 + 1) * (qnat r / e)) / qnat n + (1 + 1) * ((1 + 1) * (qnat (updates full (free_vars b ev)) * slip b N) * (qnat r / e)) + ((1 + 1) * ulp + ulp * ulp))%Qc.
Proof.
  intros SN ST CO SP TO ND LE IN VS F. destruct (all_some b SN ev) as (D & P & H). destruct (mixing_connected b SN ev full CO F) as (r & e & MX).
  exists D, r, e. split; [exact P|]. split; [apply MX|]. split; [apply MX|]. split; [apply MX|]. intros RD AD N t burnIn n q m N0 DN n0 C Q M.
  destruct (H N DN) as (GF & MF & DF & VF). assert (QI : incl (dkeys q) (bnames b)) by (intros v V; apply VS; now apply Q).
  exact (rsquare_bound b SN ev ND IN N N0 t full F order q QI _ GF MF DF VF r e MX ST TO LE SP eq_refl vs VS burnIn n m n0 C Q M).
Qed.

(** With fine arithmetic and fine random numbers, long chains are within [delta] of the
    posterior as often as one likes; the arithmetic need not get finer with their length
    (but has to count so far). *)
Theorem C83_consistent b ev order vs full delta eps : sampled_net b -> stochastic_bn b -> connected b ev -> starts_possible b ev -> topological b order -> NoDup (dkeys ev) ->
  legal_ev b ev -> incl (dkeys ev) (bnames b) -> incl vs (bnames b) -> full = true \/ free_vars b ev <> [] -> (0 < delta)%Qc -> (0 < eps)%Qc ->
  exists D A K, 0 < D /\ 0 < A /\ forall (RD : Rounding) (AD : Adding) N t burnIn n q m, (ulp <= / qnat A)%Qc -> A <= N -> Nat.divide D N -> K <= n -> 0 < n -> counts_exactly n ->
    is_inst b vs q -> length (filter (fun v => negb (dmem v ev)) order) + (burnIn + n) * per_step t full (free_vars b ev) <= m ->
    (chance N m (fun g => far (posterior b (hard ev) q) delta (estimate q (rmcmc_marginals t burnIn full n g b order vs ev))) <= eps)%Qc.
Proof.
  intros SN ST CO SP TO ND LE IN VS F D0 E0. destruct (C83_squared_error b ev order vs full SN ST CO SP TO ND LE IN VS F) as (D & r & e & P & r0 & e0 & e1 & H).
  assert (S0 : (0 < eps * (delta * delta))%Qc) by (apply Qcmult_pos; [exact E0|now apply Qcmult_pos]). set (s := (eps * (delta * delta) / (1 + 1 + 1))%Qc).
  assert (S1 : (0 < s)%Qc) by (apply Qcmult_pos; [exact S0|reflexivity]). assert (SZ : s <> 0%Qc) by (intros Z; rewrite Z in S1; now apply Qc_lt_irrefl in S1).
  assert (S2 : (0 < s / (1 + 1))%Qc) by (apply Qcmult_pos; [exact S1|reflexivity]).
  destruct (drift_small b ev full r e _ e0 S2) as (A1 & A10 & HA). destruct (archimedes ((1 + 1 + 1) / s)%Qc) as (A2 & HA2).
  set (B := (1 + (1 + 1) * (qnat r / e))%Qc). destruct (archimedes (B / s)%Qc) as (K & HK). exists D, (A1 + A2), K. split; [exact P|]. split; [lia|].
  intros RD AD N t burnIn n q m U AN DN KN n0 C Q M. assert (N0 : 0 < N) by lia. assert (QN : (0 < qnat n)%Qc) by now apply qnat_pos. assert (QZ := qnat_neq0 n n0).
  apply (Qcmult_lt_0_le_reg_r _ _ (delta * delta)%Qc); [now apply Qcmult_pos|]. eapply Qcle_trans; [apply chebyshev; now apply Qclt_le_weak|].
  eapply Qcle_trans; [exact (H RD AD N t burnIn n q m N0 DN n0 C Q M)|]. replace (eps * (delta * delta))%Qc with (s + s + s)%Qc by (unfold s; field; discriminate).
  apply Qcplus_le_compat; [apply Qcplus_le_compat|].
  - fold B. apply (cancel_le (qnat n)); [exact QN|]. replace (qnat n * (B / qnat n))%Qc with B by (field; exact QZ). apply Qcle_trans with (B / s * s)%Qc; [apply LawSpread.Qcle_refl'; field; exact SZ|].
    apply Qcmult_le_compat_r; [|now apply Qclt_le_weak]. eapply Qcle_trans; [exact HK|now apply qnat_le].
  - assert (W := HA RD N (Qcle_trans _ _ _ U (inv_qnat_le A1 (A1 + A2) A10 ltac:(lia))) ltac:(lia)). unfold drift in W.
    replace s with ((1 + 1) * (s / (1 + 1)))%Qc by (field; discriminate). apply Qcmult_le_l; [discriminate|exact W].
  - assert (A20 : 0 < A2). { destruct A2; [|lia]. exfalso. change (qnat 0) with 0%Qc in HA2. apply (Qclt_not_le 0%Qc ((1 + 1 + 1) / s)%Qc); [apply Qcmult_pos; [reflexivity|now apply Qcinv_pos]|exact HA2]. }
    assert (U1 : (ulp <= 1)%Qc) by (eapply Qcle_trans; [exact U|]; replace 1%Qc with (/ qnat 1)%Qc by reflexivity; apply inv_qnat_le; lia).
    assert (U2 : (ulp <= / qnat A2)%Qc) by (eapply Qcle_trans; [exact U|]; apply inv_qnat_le; lia).
    apply Qcle_trans with ((1 + 1 + 1) * ulp)%Qc.
    + replace ((1 + 1 + 1) * ulp)%Qc with ((1 + 1) * ulp + ulp * 1)%Qc by ring. apply Qcplus_le_compat; [apply Qcle_refl|]. apply Qcmult_le_l; [apply ulp_nonneg|exact U1].
    + apply Qcle_trans with ((1 + 1 + 1) * / qnat A2)%Qc; [apply Qcmult_le_l; [discriminate|exact U2]|]. assert (Z2 := qnat_neq0 A2 A20).
      apply (cancel_le (qnat A2 * / s)); [apply Qcmult_pos; [now apply qnat_pos|now apply Qcinv_pos]|].
      replace (qnat A2 * / s * ((1 + 1 + 1) * / qnat A2))%Qc with ((1 + 1 + 1) / s)%Qc by (field; split; assumption). replace (qnat A2 * / s * s)%Qc with (qnat A2) by (field; exact SZ). exact HA2.
Qed.

(** The runs do differ at times: with 0.1, 0.2 and 0.7 in doubles, the random number
    0.30000000000000004 draws the third value in exact arithmetic, the second in doubles. *)
Definition thirds : bn := mkBN
  [mkN "A" ["a"; "b"; "c"] [] [] (mkArr [3] [qq 3602879701896397 36028797018963968; qq 3602879701896397 18014398509481984; qq 3152519739159347 4503599627370496])] ["A"] [].
Definition same_draws : rng := {| unif := fun _ => qq 1351079888211149 4503599627370496; choose := fun _ => 0 |}.
Theorem C83_same_refuted : exists b order g, sampled_net b /\ topological b order /\ rng_ok g /\ differ_samples (@rget_sample double g 0 b order []) (get_sample g 0 b order []) = true.
Proof.
  exists thirds, ["A"], same_draws. assert (SN : sampled_net thirds) by (apply sampled_ok; vm_compute; reflexivity). split; [exact SN|].
  split; [apply topological_ok; [exact (sn_bn _ SN)| |]; vm_compute; reflexivity|]. split.
  - intros k. split; [apply qleb_true; vm_compute; reflexivity|reflexivity].
  - apply (proj2 C83_differ). intros H. vm_compute in H. discriminate H.
Qed.

(** The hypotheses, in doubles: [loop5] without zeros, [gate] with zeros (PropLaw.v has
    their other hypotheses), and the size of the bounds. *)
Example C83_example : let ev := [("D", "t"); ("B", "f")] in
  sampled_net loop5 /\ nonneg_bn loop5 /\ connected loop5 ev /\ starts_possible loop5 ev /\ topological loop5 ["A"; "B"; "C"; "E"; "D"] /\ free_vars loop5 ev = ["A"; "C"; "E"] /\
  rng_ok same_draws /\ (forall k, (0 < unif same_draws k)%Qc) /\ @counts_exactly double 1000 /\
  draw_errors loop5 = 15 /\ widest loop5 = 2 /\ (qnat (2 * draw_errors loop5) * @ulp double <= 1 / (1 + 1))%Qc /\
  (qnat 2 * ((1 + 1) * (qnat (2 * draw_errors loop5) * @ulp double) + qq 1 9007199254740992) <= qq 1 (10 ^ 13))%Qc /\
  sampled_net gate /\ connected gate [("C", "t")].
Proof.
  cbn zeta. destruct C52_C53_example as (SN & _ & PB & TO & _). split; [exact SN|]. split; [apply nonnegb_ok; vm_compute; reflexivity|]. destruct (C52_positive loop5 [("D", "t"); ("B", "f")] SN PB) as [CO SP].
  split; [exact CO|]. split; [exact SP|]. split; [exact TO|]. split; [reflexivity|]. split; [intros k; split; [apply qleb_true; vm_compute; reflexivity|reflexivity]|]. split; [intros k; reflexivity|].
  split; [apply C83_counts; discriminate|]. split; [reflexivity|]. split; [reflexivity|]. split; [apply qleb_true; vm_compute; reflexivity|]. split; [apply qleb_true; vm_compute; reflexivity|].
  split; [exact gate_sampled|exact gate_connected].
Qed.

Print Assumptions C83_same_program.
Print Assumptions C83_chain_same.
Print Assumptions C83_sample_same.
Print Assumptions C83_differ.
Print Assumptions C83_chain.
Print Assumptions C83_sample.
Print Assumptions C83_frequencies.
Print Assumptions C83_counts.
Print Assumptions C83_posterior.
Print Assumptions C83_estimate.
Print Assumptions C83_size.
Print Assumptions C83_squared_error.
Print Assumptions C83_consistent.
Print Assumptions C83_limit.
Print Assumptions C83_same_refuted.
