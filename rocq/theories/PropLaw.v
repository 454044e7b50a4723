(** Properties C49-C53: the distribution of samples and chains.  Probabilities are
    counted over equally likely draws ([chance], LawSpec.v); they are exact for
    all numbers N of draws that are multiples of a denominator D of the network. *)
From Verif Require Import Base NDArray Factor Exact Spec OrderSpec BaseFacts FactorProofs Checks Instances ExampleNets
  Sampling MCSpec MCFacts MCProof MCTop MCChain MCForward MCChecks LawSpec LawCount LawKernel LawOne LawChain LawPost LawMean LawErgodic LawForward LawMCMC LawEstimate LawTop LawStuck LawLarge LawSpread LawLinked PropMCMC.

(** ** C49: if the start is distributed as the posterior, so is every state of the
    chain.  [q] may be partial. *)
Theorem C49_stationary b ev : sampled_net b -> NoDup (dkeys ev) -> incl (dkeys ev) (bnames b) ->
  exists D, 0 < D /\ forall N t full burnIn n j q m, 0 < N -> Nat.divide D N -> full = true \/ free_vars b ev <> [] -> j < n ->
    (burnIn + S j) * per_step t full (free_vars b ev) <= m ->
    qsum (map (fun x => posterior b (hard ev) x *
                        chance N m (fun g => shows q j (generate_chain t burnIn full g b n (x, 0%nat) (Some ev))))%Qc (worlds b ev)) =
    posterior b (hard ev) q.
Proof.
  intros SN ND IN. destruct (all_some b SN ev) as (D & P & H). exists D. split; [exact P|]. intros N t full burnIn n j q m N0 DN F J L.
  apply (chain_law b SN ev ND IN N t full burnIn n j q m N0 (H N DN) F J L).
Qed.

Example C49_example : let ev := [("D", "t")] in sampled_net net /\ NoDup (dkeys ev) /\ incl (dkeys ev) (bnames net) /\
  free_vars net ev = ["A"; "B"; "C"] /\ length (worlds net ev) = 12 /\ mem "A" (bnames net) = true /\
  negb (qeqb (posterior net (hard ev) [("A", "t")]) (posterior net [] [("A", "t")])) = true /\
  qltb 0%Qc (posterior net (hard ev) [("A", "t")]) = true.
Proof.
  cbn zeta. split; [exact net_sampled|]. split; [apply nodup_s_spec; reflexivity|]. split; [apply inclb_ok; reflexivity|].
  split; [reflexivity|]. split; [vm_compute; reflexivity|]. split; [reflexivity|]. split; vm_compute; reflexivity.
Qed.

(** ** C50: forward sampling draws every state with the product of the tables of
    the variables that are not observed. *)
Theorem C50_forward b ev order : sampled_net b -> stochastic_bn b -> topological b order -> NoDup (dkeys ev) -> incl (dkeys ev) (bnames b) ->
  exists D, 0 < D /\ forall N m y, 0 < N -> Nat.divide D N -> In y (worlds b ev) -> length (filter (fun v => negb (dmem v ev)) order) <= m ->
    chance N m (fun g => drawn y (get_sample g 0 b order ev)) =
    qprod (map (fun n => entry n y) (filter (fun n => negb (dmem (dn_name n) ev)) (bnodes b))).
Proof.
  intros SN ST TO ND IN. destruct (fwd_some b SN ev) as (D & P & H). exists D. split; [exact P|]. intros N m y N0 DN Y M.
  apply (fwd_chance b SN ev order TO ND IN ST N m y N0 (H N DN) Y M).
Qed.

(** This is the joint distribution without evidence, and the posterior for
    evidence upstream. *)
Theorem C50_posterior_partial b ev order : sampled_net b -> stochastic_bn b -> topological b order -> NoDup (dkeys ev) -> legal_ev b ev ->
  incl (dkeys ev) (bnames b) -> upstream b ev -> (0 < mass b (hard ev) [])%Qc ->
  exists D, 0 < D /\ forall N m y, 0 < N -> Nat.divide D N -> In y (worlds b ev) -> length (filter (fun v => negb (dmem v ev)) order) <= m ->
    chance N m (fun g => drawn y (get_sample g 0 b order ev)) = posterior b (hard ev) y.
Proof.
  intros SN ST TO ND LE IN U MP. destruct (fwd_some b SN ev) as (D & P & H). exists D. split; [exact P|]. intros N m y N0 DN Y M.
  rewrite (fwd_chance b SN ev order TO ND IN ST N m y N0 (H N DN) Y M).
  assert (KZ : mass b (hard ev) [] <> 0%Qc) by (intros E; rewrite E in MP; now apply Qc_lt_irrefl in MP).
  apply (Qcmult_cancel _ _ _ KZ). etransitivity; [exact (upstream_fwd b SN ev ND IN ST order TO LE N N0 (H N DN) U y Y)|].
  unfold posterior. rewrite (mass_full b SN ev ND IN y Y). destruct (qeqb (mass b (hard ev) []) 0%Qc) eqn:E; [now apply qeqb_true in E|].
  unfold Qcdiv. rewrite (Qcmult_comm (joint b y)), Qcmult_assoc, Qcmult_inv_r by exact KZ. ring.
Qed.

(** With evidence downstream it is not the posterior. *)
Theorem C50_downstream_refuted : exists b ev order y, sampled_net b /\ stochastic_bn b /\ topological b order /\ NoDup (dkeys ev) /\ legal_ev b ev /\
  incl (dkeys ev) (bnames b) /\ (0 < mass b (hard ev) [])%Qc /\ In y (worlds b ev) /\ posterior b (hard ev) y = 0%Qc /\
  exists D, 0 < D /\ forall N m, 0 < N -> Nat.divide D N -> 1 <= m -> chance N m (fun g => drawn y (get_sample g 0 b order ev)) = qq 1 2.
Proof.
  exists copy, [("B", "t")], ["A"; "B"], [("A", "f"); ("B", "t")]. split; [exact copy_sampled|]. split; [exact copy_stochastic|]. split; [exact copy_topological|].
  split; [apply nodup_s_spec; reflexivity|]. split; [apply legal_evb_ok; reflexivity|]. split; [apply inclb_ok; reflexivity|]. split; [reflexivity|].
  split; [vm_compute; tauto|]. split; [qc|].
  destruct (C50_forward copy [("B", "t")] ["A"; "B"] copy_sampled copy_stochastic copy_topological) as (D & P & H); [apply nodup_s_spec; reflexivity|apply inclb_ok; reflexivity|].
  exists D. split; [exact P|]. intros N m N0 DN M. rewrite H; [qc|exact N0|exact DN|vm_compute; tauto|exact M].
Qed.

Example C50_example : sampled_net net /\ stochastic_bn net /\ topological net ["A"; "B"; "C"; "D"] /\ upstream net [("A", "f")] /\ upstream net [] /\
  (0 < mass net (hard [("A", "f")]) [])%Qc /\ legal_ev net [("A", "f")] /\ In [("A", "f"); ("B", "y"); ("C", "t"); ("D", "t")] (worlds net [("A", "f")]) /\
  qprod (map (fun n => entry n [("A", "f"); ("B", "y"); ("C", "t"); ("D", "t")]) (filter (fun n => negb (dmem (dn_name n) [("A", "f")])) (bnodes net))) = qq 9 100.
Proof.
  split; [exact net_sampled|]. split; [exact net_stochastic|]. split; [exact net_topological|]. split.
  { intros n Hn E v V. destruct E as [E|[]]. destruct Hn as [<-|[<-|[<-|[<-|[]]]]]; try discriminate E. destruct V. }
  split; [intros n Hn []|]. split; [reflexivity|]. split; [apply legal_evb_ok; reflexivity|]. split; [vm_compute; tauto|]. qc.
Qed.

(** ** C51: the numbers MCMC.marginals returns have the posterior as their mean,
    if the evidence is upstream.  [length order + ...] draws are enough. *)
Theorem C51_unbiased b ev order vs : sampled_net b -> stochastic_bn b -> topological b order -> NoDup (dkeys ev) -> legal_ev b ev ->
  incl (dkeys ev) (bnames b) -> upstream b ev -> (0 < mass b (hard ev) [])%Qc -> incl vs (bnames b) ->
  exists D, 0 < D /\ forall N t full burnIn n q m, 0 < N -> Nat.divide D N -> full = true \/ free_vars b ev <> [] -> 0 < n -> is_inst b vs q ->
    length (filter (fun v => negb (dmem v ev)) order) + (burnIn + n) * per_step t full (free_vars b ev) <= m ->
    expectation N m (fun g => estimate q (mcmc_marginals t burnIn full n g b order vs ev)) = posterior b (hard ev) q.
Proof.
  intros SN ST TO ND LE IN U MP VS.
  destruct (and_some _ _ (fwd_some b SN ev) (all_some b SN ev)) as (D & P & H). exists D. split; [exact P|]. intros N t full burnIn n q m N0 DN F n0 Q M.
  destruct (H N DN) as (FF & GF & MF & DF & VF). now apply unbiased.
Qed.

Example C51_example : sampled_net net /\ stochastic_bn net /\ topological net ["A"; "B"; "C"; "D"] /\ upstream net [("A", "f")] /\
  (0 < mass net (hard [("A", "f")]) [])%Qc /\ legal_ev net [("A", "f")] /\ incl ["D"] (bnames net) /\ is_inst net ["D"] [("D", "t")] /\
  posterior net (hard [("A", "f")]) [("D", "t")] = qq 1 2 /\ posterior net [] [("D", "t")] = qq 47 100.
Proof.
  destruct C50_example as (A & B & C & D & _ & E & F & _). repeat (split; [assumption|]). split; [apply inclb_ok; reflexivity|]. split.
  { split; [apply nodup_s_spec; reflexivity|]. split; [intros v; reflexivity|]. intros v x [H|[]]. inversion H; subst. now left. }
  split; qc.
Qed.

(** ** C52: if all possible states are linked by changes of one variable at a time,
    the chains approach the posterior from every possible state; if in addition
    sampling starts in possible states only, so do the estimates of
    MCMC.marginals.  Tables without zeros are enough for both. *)
Theorem C52_chain_partial b ev full : sampled_net b -> connected b ev -> NoDup (dkeys ev) -> incl (dkeys ev) (bnames b) -> full = true \/ free_vars b ev <> [] ->
  exists D r e, 0 < D /\ 0 < r /\ (0 < e)%Qc /\ (e <= 1)%Qc /\ forall N t burnIn n j q m x, 0 < N -> Nat.divide D N -> In x (possible b ev) -> j < n ->
    (burnIn + S j) * per_step t full (free_vars b ev) <= m ->
    let p := chance N m (fun g => shows q j (generate_chain t burnIn full g b n (x, 0%nat) (Some ev))) in
    let d := power (1 - e)%Qc ((burnIn + S j) / r) in
    (posterior b (hard ev) q - d <= p)%Qc /\ (p <= posterior b (hard ev) q + d)%Qc.
Proof.
  intros SN CO ND IN F. destruct (all_some b SN ev) as (D & P & H). destruct (mixing_connected b SN ev full CO F) as (r & e & MX).
  exists D, r, e. split; [exact P|]. split; [apply MX|]. split; [apply MX|]. split; [apply MX|]. intros N t burnIn n j q m x N0 DN X J M.
  destruct (H N DN) as (GF & MF & DF & VF). now apply (chain_near b SN ev ND IN N N0 GF MF DF VF t full F r e MX).
Qed.

(** For tables without zeros: from every state, and with the time it takes to
    visit all variables. *)
Theorem C52_chain_rate_partial b ev full : sampled_net b -> positive_bn b -> NoDup (dkeys ev) -> incl (dkeys ev) (bnames b) -> full = true \/ free_vars b ev <> [] ->
  exists D e, 0 < D /\ (0 < e)%Qc /\ (e <= 1)%Qc /\ forall N t burnIn n j q m x, 0 < N -> Nat.divide D N -> In x (worlds b ev) -> j < n ->
    (burnIn + S j) * per_step t full (free_vars b ev) <= m ->
    let p := chance N m (fun g => shows q j (generate_chain t burnIn full g b n (x, 0%nat) (Some ev))) in
    let d := power (1 - e)%Qc ((burnIn + S j) / round b ev full) in
    (posterior b (hard ev) q - d <= p)%Qc /\ (p <= posterior b (hard ev) q + d)%Qc.
Proof.
  intros SN PB ND IN F. destruct (all_some b SN ev) as (D & P & H). destruct (mixing_positive b SN ev full PB F) as (e & MX).
  exists D, e. split; [exact P|]. split; [apply MX|]. split; [apply MX|]. intros N t burnIn n j q m x N0 DN X J M.
  destruct (H N DN) as (GF & MF & DF & VF). apply (chain_near b SN ev ND IN N N0 GF MF DF VF t full F _ e MX); auto. now apply positive_live.
Qed.

(** A chain visits states linked to its start only, whatever is drawn. *)
Theorem C52_visited b ev g x t burnIn full n k : sampled_net b -> incl (dkeys ev) (bnames b) -> full = true \/ free_vars b ev <> [] ->
  (forall k, (0 < unif g k)%Qc /\ (unif g k < 1)%Qc) -> In x (possible b ev) ->
  exists l, generate_chain t burnIn full g b n (x, k) (Some ev) = Ok l /\ forall s, In s l -> In s (possible b ev) /\ linked b ev x s.
Proof.
  intros SN IN F G X. destruct (chain_visited b SN ev IN g G x t burnIn full n k F X) as (l & E & V). exists l. split; [exact E|].
  intros s S. rewrite Forall_forall in V. exact (V s S).
Qed.

(** So being linked is exactly what the limit needs. *)
Theorem C52_chain_iff b ev full t : sampled_net b -> NoDup (dkeys ev) -> incl (dkeys ev) (bnames b) -> full = true \/ free_vars b ev <> [] ->
  (connected b ev <->
   forall delta, (0 < delta)%Qc -> exists D K, 0 < D /\ forall N burnIn n j q m x, 0 < N -> Nat.divide D N -> K <= burnIn -> In x (possible b ev) -> j < n ->
     (burnIn + S j) * per_step t full (free_vars b ev) <= m ->
     let p := chance N m (fun g => shows q j (generate_chain t burnIn full g b n (x, 0%nat) (Some ev))) in
     (posterior b (hard ev) q - delta <= p)%Qc /\ (p <= posterior b (hard ev) q + delta)%Qc).
Proof.
  intros SN ND IN F. split.
  - intros CO delta DE. destruct (C52_chain_partial b ev full SN CO ND IN F) as (D & r & e & P & r0 & e0 & e1 & H).
    destruct (power_small e delta e0 e1 DE) as (K & HK). exists D, (K * r). split; [exact P|].
    intros N burnIn n j q m x N0 DN KB X J M p. destruct (H N t burnIn n j q m x N0 DN X J M) as [A B]. cbv zeta in A, B. fold p in A, B.
    assert (R : (power (1 - e) ((burnIn + S j) / r) <= delta)%Qc).
    { apply HK. rewrite <- (Nat.div_mul K r) by lia. apply Nat.div_le_mono; lia. }
    split; [eapply Qcle_trans; [|exact A]|eapply Qcle_trans; [exact B|]].
    + apply Qcplus_le_compat; [apply Qcle_refl|]. now apply Qcopp_le_compat.
    + apply Qcplus_le_compat; [apply Qcle_refl|exact R].
  - intros H x y X Y. pose proof (post_pos b SN ev IN y ND Y) as PY. set (p := posterior b (hard ev) y) in *.
    destruct (H (p * qq 1 2)%Qc) as (D & K & P & C); [now apply Qcmult_pos|].
    destruct (C D K 1 0 y ((K + 1) * per_step t full (free_vars b ev)) x P (Nat.divide_refl D) (le_n K) X Nat.lt_0_1 (le_n _)) as [A _]. cbv zeta in A. fold p in A.
    apply (shown_linked b SN ev IN D ((K + 1) * per_step t full (free_vars b ev)) t K full 1 0 x y F X Y). eapply Qclt_le_trans; [|exact A].
    replace (p - p * qq 1 2)%Qc with (p * qq 1 2)%Qc; [now apply Qcmult_pos|].
    transitivity (p * (1 - qq 1 2))%Qc; [f_equal; qc|ring].
Qed.

(** When sampling starts in possible states. *)
Theorem C52_starts b ev : sampled_net b -> NoDup (dkeys ev) -> incl (dkeys ev) (bnames b) ->
  upstream b ev /\ (0 < mass b (hard ev) [])%Qc \/
  (forall n, In n (bnodes b) -> In (dn_name n) (dkeys ev) -> Forall (fun x => (0 < x)%Qc) (data (dn_cpd n))) -> starts_possible b ev.
Proof. intros SN ND IN [[U M]|H]; [now apply starts_upstream|now apply starts_observed]. Qed.

Theorem C52_positive b ev : sampled_net b -> positive_bn b -> connected b ev /\ starts_possible b ev.
Proof. intros SN P. split; [now apply positive_connected|now apply positive_starts]. Qed.

Theorem C52_estimate_partial b ev order vs full : sampled_net b -> stochastic_bn b -> connected b ev -> starts_possible b ev -> topological b order -> NoDup (dkeys ev) ->
  legal_ev b ev -> incl (dkeys ev) (bnames b) -> incl vs (bnames b) -> full = true \/ free_vars b ev <> [] ->
  exists D r e, 0 < D /\ 0 < r /\ (0 < e)%Qc /\ (e <= 1)%Qc /\ forall N t burnIn n q m, 0 < N -> Nat.divide D N -> 0 < n -> is_inst b vs q ->
    length (filter (fun v => negb (dmem v ev)) order) + (burnIn + n) * per_step t full (free_vars b ev) <= m ->
    let E := expectation N m (fun g => estimate q (mcmc_marginals t burnIn full n g b order vs ev)) in
    let d := power (1 - e)%Qc (burnIn / r) in
    (posterior b (hard ev) q - d <= E)%Qc /\ (E <= posterior b (hard ev) q + d)%Qc.
Proof.
  intros SN ST CO SP TO ND LE IN VS F. destruct (and_some _ _ (fwd_some b SN ev) (all_some b SN ev)) as (D & P & H).
  destruct (mixing_connected b SN ev full CO F) as (r & e & MX).
  exists D, r, e. split; [exact P|]. split; [apply MX|]. split; [apply MX|]. split; [apply MX|]. intros N t burnIn n q m N0 DN n0 Q M.
  destruct (H N DN) as (FF & GF & MF & DF & VF). now apply (estimate_near b SN ev ND IN N N0 GF MF DF VF t full F r e MX ST order TO LE FF SP vs VS).
Qed.

(** In the limit: every accuracy is reached with a long enough burn-in. *)
Theorem C52_burn_in_partial b ev order vs full delta : sampled_net b -> stochastic_bn b -> connected b ev -> starts_possible b ev -> topological b order -> NoDup (dkeys ev) -> legal_ev b ev ->
  incl (dkeys ev) (bnames b) -> incl vs (bnames b) -> full = true \/ free_vars b ev <> [] -> (0 < delta)%Qc ->
  exists D K, 0 < D /\ forall N t burnIn n q m, 0 < N -> Nat.divide D N -> K <= burnIn -> 0 < n -> is_inst b vs q ->
    length (filter (fun v => negb (dmem v ev)) order) + (burnIn + n) * per_step t full (free_vars b ev) <= m ->
    let E := expectation N m (fun g => estimate q (mcmc_marginals t burnIn full n g b order vs ev)) in
    (posterior b (hard ev) q - delta <= E)%Qc /\ (E <= posterior b (hard ev) q + delta)%Qc.
Proof.
  intros SN ST CO SP TO ND LE IN VS F DE. destruct (C52_estimate_partial b ev order vs full SN ST CO SP TO ND LE IN VS F) as (D & r & e & P & r0 & e0 & e1 & H).
  destruct (power_small e delta e0 e1 DE) as (K & HK). exists D, (K * r). split; [exact P|].
  intros N t burnIn n q m N0 DN KB n0 Q M E. destruct (H N t burnIn n q m N0 DN n0 Q M) as [A B]. cbv zeta in A, B. fold E in A, B.
  assert (R : (power (1 - e) (burnIn / r) <= delta)%Qc).
  { apply HK. rewrite <- (Nat.div_mul K r) by lia. apply Nat.div_le_mono; lia. }
  split; [eapply Qcle_trans; [|exact A]|eapply Qcle_trans; [exact B|]].
  - apply Qcplus_le_compat; [apply Qcle_refl|]. now apply Qcopp_le_compat.
  - apply Qcplus_le_compat; [apply Qcle_refl|exact R].
Qed.

(** With unlinked states it fails: every single run reports 0 or 1, whatever
    the transition model, the burn-in and the number of samples. *)
Theorem C52_zeros_refuted : exists b order q, sampled_net b /\ stochastic_bn b /\ topological b order /\ is_inst b ["A"] q /\ posterior b [] q = qq 1 2 /\
  forall g t burnIn full n, (forall k, (0 < unif g k)%Qc /\ (unif g k < 1)%Qc) -> n <> 0 ->
    exists f, mcmc_marginals t burnIn full n g b order ["A"] [] = Ok f /\ (potential_at f q = 0%Qc \/ potential_at f q = 1%Qc).
Proof.
  exists copy, ["A"; "B"], [("A", "t")]. split; [exact copy_sampled|]. split; [exact copy_stochastic|]. split; [exact copy_topological|]. split.
  { split; [apply nodup_s_spec; reflexivity|]. split; [intros v; reflexivity|]. intros v x [H|[]]. inversion H; subst. now left. }
  split; [qc|]. intros g t burnIn full n G NZ. now apply stuck_estimate.
Qed.

(** ** C53: a law of large numbers.  The mean squared error falls like 1/n, whatever
    the burn-in; so all accuracies and confidences are reached with enough samples. *)
Theorem C53_squared_error_partial b ev order vs full : sampled_net b -> stochastic_bn b -> connected b ev -> starts_possible b ev -> topological b order -> NoDup (dkeys ev) ->
  legal_ev b ev -> incl (dkeys ev) (bnames b) -> incl vs (bnames b) -> full = true \/ free_vars b ev <> [] ->
  exists D B, 0 < D /\ (0 < B)%Qc /\ forall N t burnIn n q m, 0 < N -> Nat.divide D N -> 0 < n -> is_inst b vs q ->
    length (filter (fun v => negb (dmem v ev)) order) + (burnIn + n) * per_step t full (free_vars b ev) <= m ->
    (expectation N m (fun g => let x := estimate q (mcmc_marginals t burnIn full n g b order vs ev) - posterior b (hard ev) q in x * x) <= B / qnat n)%Qc.
Proof.
  intros SN ST CO SP TO ND LE IN VS F. destruct (and_some _ _ (fwd_some b SN ev) (all_some b SN ev)) as (D & P & H).
  destruct (mixing_connected b SN ev full CO F) as (r & e & MX).
  exists D, (1 + (1 + 1) * (qnat r / e))%Qc. split; [exact P|]. split.
  { apply Qclt_le_trans with 1%Qc; [reflexivity|]. rewrite <- (Qcplus_0_r 1%Qc) at 1. apply Qcplus_le_compat; [apply Qcle_refl|].
    apply Qcmult_nonneg; [discriminate|]. apply Qcdiv_nonneg; [apply (qnat_le 0); lia|apply MX]. }
  intros N t burnIn n q m N0 DN n0 Q M. destruct (H N DN) as (FF & GF & MF & DF & VF).
  apply (square_bound b SN ST ev order TO ND IN LE N N0 FF t full F q) with (vs := vs); auto.
  intros v V. apply VS. now apply Q.
Qed.

Theorem C53_consistent_partial b ev order vs full delta eps : sampled_net b -> stochastic_bn b -> connected b ev -> starts_possible b ev -> topological b order -> NoDup (dkeys ev) ->
  legal_ev b ev -> incl (dkeys ev) (bnames b) -> incl vs (bnames b) -> full = true \/ free_vars b ev <> [] -> (0 < delta)%Qc -> (0 < eps)%Qc ->
  exists D K, 0 < D /\ forall N t burnIn n q m, 0 < N -> Nat.divide D N -> K <= n -> 0 < n -> is_inst b vs q ->
    length (filter (fun v => negb (dmem v ev)) order) + (burnIn + n) * per_step t full (free_vars b ev) <= m ->
    (chance N m (fun g => far (posterior b (hard ev) q) delta (estimate q (mcmc_marginals t burnIn full n g b order vs ev))) <= eps)%Qc.
Proof.
  intros SN ST CO SP TO ND LE IN VS F D0 E0. destruct (C53_squared_error_partial b ev order vs full SN ST CO SP TO ND LE IN VS F) as (D & B & P & B0 & H).
  assert (S0 : (0 < eps * (delta * delta))%Qc) by (apply Qcmult_pos; [exact E0|now apply Qcmult_pos]).
  destruct (archimedes (B / (eps * (delta * delta)))%Qc) as (K & HK). exists D, K. split; [exact P|].
  intros N t burnIn n q m N0 DN KN n0 Q M. apply (Qcmult_lt_0_le_reg_r _ _ (delta * delta)%Qc); [now apply Qcmult_pos|].
  eapply Qcle_trans; [apply chebyshev; now apply Qclt_le_weak|]. eapply Qcle_trans; [exact (H N t burnIn n q m N0 DN n0 Q M)|].
  assert (QN : (0 < qnat n)%Qc) by now apply qnat_pos. apply (Qcmult_lt_0_le_reg_r _ _ _ QN).
  assert (QZ := qnat_neq0 n n0). assert (SZ : (eps * (delta * delta))%Qc <> 0%Qc) by (intros Z; rewrite Z in S0; now apply Qc_lt_irrefl in S0).
  unfold Qcdiv. rewrite <- Qcmult_assoc, (Qcmult_comm (/ _)), Qcmult_inv_r, Qcmult_1_r by exact QZ.
  apply Qcle_trans with (B / (eps * (delta * delta)) * (eps * (delta * delta)))%Qc.
  - apply Qcle_refl'. unfold Qcdiv. rewrite <- Qcmult_assoc, (Qcmult_comm (/ _)), Qcmult_inv_r by exact SZ. ring.
  - rewrite (Qcmult_comm (eps * _) (qnat n)). apply Qcmult_le_compat_r; [|now apply Qclt_le_weak]. eapply Qcle_trans; [exact HK|]. now apply qnat_le.
Qed.

Theorem C53_zeros_refuted : exists b order q, sampled_net b /\ stochastic_bn b /\ topological b order /\ is_inst b ["A"] q /\
  forall g t burnIn full n, (forall k, (0 < unif g k)%Qc /\ (unif g k < 1)%Qc) -> n <> 0 ->
    far (posterior b [] q) (qq 1 4) (estimate q (mcmc_marginals t burnIn full n g b order ["A"] [])) = true.
Proof.
  destruct C52_zeros_refuted as (b & order & q & SN & ST & TO & Q & P & H). exists b, order, q. do 4 (split; [assumption|]).
  intros g t burnIn full n G NZ. destruct (H g t burnIn full n G NZ) as (f & E & [Z|Z]); rewrite E; cbn [estimate]; rewrite P, Z; vm_compute; reflexivity.
Qed.

Lemma loop5_sampled : sampled_net loop5.
Proof. apply sampled_ok; vm_compute; reflexivity. Qed.
Lemma loop5_positive : positive_bn loop5.
Proof. intros n Hn. cbn in Hn. repeat (destruct Hn as [<-|Hn]; [repeat constructor|]). destruct Hn. Qed.

(** The hypotheses of C52 and C53: tables without zeros, ... *)
Example C52_C53_example : let ev := [("D", "t"); ("B", "f")] in let order := ["A"; "B"; "C"; "E"; "D"] in
  sampled_net loop5 /\ stochastic_bn loop5 /\ positive_bn loop5 /\ topological loop5 order /\ NoDup (dkeys ev) /\ legal_ev loop5 ev /\ incl (dkeys ev) (bnames loop5) /\
  incl ["A"; "E"] (bnames loop5) /\ free_vars loop5 ev = ["A"; "C"; "E"] /\ round loop5 ev false = 3 /\ is_inst loop5 ["A"; "E"] [("E", "f"); ("A", "t")] /\
  negb (qeqb (posterior loop5 (hard ev) [("E", "f"); ("A", "t")]) (posterior loop5 [] [("E", "f"); ("A", "t")])) = true.
Proof.
  cbn zeta. split; [exact loop5_sampled|]. split; [apply stochasticb_ok; [exact (sn_bn _ loop5_sampled)|vm_compute; reflexivity]|]. split; [exact loop5_positive|].
  split; [apply topological_ok; [exact (sn_bn _ loop5_sampled)| |]; vm_compute; reflexivity|]. split; [apply nodup_s_spec; reflexivity|].
  split; [apply legal_evb_ok; reflexivity|]. split; [apply inclb_ok; reflexivity|]. split; [apply inclb_ok; reflexivity|]. split; [reflexivity|]. split; [reflexivity|]. split.
  { split; [apply nodup_s_spec; reflexivity|]. split; [intros v; cbn; tauto|]. intros v x [H|[H|[]]]; inversion H; subst; vm_compute; tauto. }
  vm_compute. reflexivity.
Qed.

(** ... and tables with zeros. *)
Definition gate : bn := mkBN
  [mkN "A" tf [] [] (mkArr [2] [qq 1 4; qq 3 4]);
   mkN "B" tf [("A", tf)] ["A"] (mkArr [2; 2] [qq 1 2; 0%Qc; qq 1 2; 1%Qc]);
   mkN "C" tf [("B", tf)] ["B"] (mkArr [2; 2] [qq 9 10; qq 1 5; qq 1 10; qq 4 5])]
  ["A"; "B"; "C"] [("A", "B"); ("B", "C")].

Lemma gate_sampled : sampled_net gate.
Proof. apply sampled_ok; vm_compute; reflexivity. Qed.

Lemma gate_connected : connected gate [("C", "t")].
Proof.
  set (p := fun a c => [("A", a); ("B", c); ("C", "t")]).
  assert (E : possible gate [("C", "t")] = [p "t" "t"; p "t" "f"; p "f" "f"]) by (vm_compute; reflexivity).
  intros x y X Y. rewrite E in X, Y.
  assert (S : forall v a z, In (dset v a z) [p "t" "t"; p "t" "f"; p "f" "f"] -> linked gate [("C", "t")] (dset v a z) y -> linked gate [("C", "t")] z y) by (intros v a z; rewrite <- E; apply linked_step).
  destruct X as [<-|[<-|[<-|[]]]], Y as [<-|[<-|[<-|[]]]]; try apply linked_here.
  - apply (S "B" "f"); [cbn; tauto|apply linked_here].
  - apply (S "B" "f"); [cbn; tauto|]. apply (S "A" "f"); [cbn; tauto|apply linked_here].
  - apply (S "B" "t"); [cbn; tauto|apply linked_here].
  - apply (S "A" "f"); [cbn; tauto|apply linked_here].
  - apply (S "A" "t"); [cbn; tauto|]. apply (S "B" "t"); [cbn; tauto|apply linked_here].
  - apply (S "A" "t"); [cbn; tauto|apply linked_here].
Qed.

Example C52_C53_gate : let ev := [("C", "t")] in let order := ["A"; "B"; "C"] in
  sampled_net gate /\ stochastic_bn gate /\ connected gate ev /\ starts_possible gate ev /\ ~ positive_bn gate /\ topological gate order /\ NoDup (dkeys ev) /\ legal_ev gate ev /\
  incl (dkeys ev) (bnames gate) /\ incl ["A"] (bnames gate) /\ free_vars gate ev = ["A"; "B"] /\ is_inst gate ["A"] [("A", "t")] /\
  (length (worlds gate ev), length (possible gate ev)) = (4, 3) /\ negb (qeqb (posterior gate (hard ev) [("A", "t")]) (posterior gate [] [("A", "t")])) = true /\
  ~ connected copy [].
Proof.
  cbn zeta. split; [exact gate_sampled|]. split; [apply stochasticb_ok; [exact (sn_bn _ gate_sampled)|vm_compute; reflexivity]|]. split; [exact gate_connected|].
  split.
  { apply C52_starts; [exact gate_sampled|apply nodup_s_spec; reflexivity|apply inclb_ok; reflexivity|right]. intros n Hn [K|[]].
    destruct Hn as [<-|[<-|[<-|[]]]]; try discriminate K. repeat constructor. }
  split.
  { intros P. specialize (P (nth 1 (bnodes gate) (mkN "" [] [] [] (mkArr [] []))) (or_intror (or_introl eq_refl))). inversion P as [|? ? _ P2]. inversion P2 as [|? ? Z _]. discriminate Z. }
  split; [apply topological_ok; [exact (sn_bn _ gate_sampled)| |]; vm_compute; reflexivity|]. split; [apply nodup_s_spec; reflexivity|].
  split; [apply legal_evb_ok; reflexivity|]. split; [apply inclb_ok; reflexivity|]. split; [apply inclb_ok; reflexivity|]. split; [reflexivity|]. split.
  { split; [apply nodup_s_spec; reflexivity|]. split; [intros v; cbn; tauto|]. intros v x [H|[]]; inversion H; subst; vm_compute; tauto. }
  split; [vm_compute; reflexivity|]. split; [vm_compute; reflexivity|].
  intros CO. set (p := fun a c : string => [("A", a); ("B", c)]).
  assert (E : possible copy [] = [p "t" "t"; p "f" "f"]) by (vm_compute; reflexivity).
  assert (K := CO (p "t" "t") (p "f" "f")). rewrite E in K. specialize (K (or_introl eq_refl) (or_intror (or_introl eq_refl))).
  assert (H : forall x y, linked copy [] x y -> x = p "t" "t" -> y = p "t" "t").
  { induction 1 as [x|x v a y S _ IH]; intros X; [exact X|]. apply IH. subst x. rewrite E in S. unfold p in *. cbn [dset] in S |- *.
    destruct (String.eqb v "A"); [|destruct (String.eqb v "B")]; destruct S as [S|[S|[]]]; try discriminate S; symmetry; exact S. }
  discriminate (H _ _ K eq_refl).
Qed.

Print Assumptions C49_stationary.
Print Assumptions C50_forward.
Print Assumptions C50_posterior_partial.
Print Assumptions C50_downstream_refuted.
Print Assumptions C51_unbiased.
Print Assumptions C52_chain_partial.
Print Assumptions C52_chain_rate_partial.
Print Assumptions C52_visited.
Print Assumptions C52_chain_iff.
Print Assumptions C52_starts.
Print Assumptions C52_positive.
Print Assumptions C52_estimate_partial.
Print Assumptions C52_burn_in_partial.
Print Assumptions C52_zeros_refuted.
Print Assumptions C53_squared_error_partial.
Print Assumptions C53_consistent_partial.
Print Assumptions C53_zeros_refuted.
