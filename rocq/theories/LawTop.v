(** The estimates' means: equal to the posterior, or approaching it. *)
From Coq Require Import Field QArith.
From Verif Require Import Base NDArray Factor Exact Spec OrderSpec BaseFacts NDArrayFacts FactorFacts FactorProofs SpecFacts Sampling MCSpec MCFacts MCProof MCTop MCChain MCForward MCMarginal
  LawSpec LawCount LawKernel LawOne LawChain LawPost LawMean LawErgodic LawForward LawMCMC LawEstimate.

Lemma power_powc c n : power c n = powc c n.
Proof. induction n as [|n IH]; [reflexivity|]. cbn [power powc]. now rewrite IH. Qed.

(** ** Averages and powers *)
Lemma qsum_le {A} (f g : A -> Qc) l : (forall x, In x l -> (f x <= g x)%Qc) -> (qsum (map f l) <= qsum (map g l))%Qc.
Proof.
  induction l as [|x l IH]; intros H; cbn [map qsum]; [apply Qcle_refl|]. apply Qcplus_le_compat; [apply H; now left|apply IH; intros; apply H; now right].
Qed.

Lemma convex {A} (w f : A -> Qc) l lo hi : (forall x, In x l -> (0 <= w x)%Qc) -> qsum (map w l) = 1%Qc ->
  (forall x, In x l -> w x = 0%Qc \/ (lo <= f x)%Qc /\ (f x <= hi)%Qc) ->
  (lo <= qsum (map (fun x => w x * f x)%Qc l))%Qc /\ (qsum (map (fun x => w x * f x)%Qc l) <= hi)%Qc.
Proof.
  intros P T H. split.
  - apply Qcle_trans with (qsum (map (fun x => lo * w x)%Qc l)); [rewrite qsum_mult_l; change (fun x => w x) with w; rewrite T, Qcmult_1_r; apply Qcle_refl|].
    apply qsum_le. intros x X. rewrite (Qcmult_comm (w x)). destruct (H x X) as [->|[B _]]; [rewrite !Qcmult_0_r; apply Qcle_refl|]. apply Qcmult_le_compat_r; [exact B|now apply P].
  - apply Qcle_trans with (qsum (map (fun x => hi * w x)%Qc l)); [|rewrite qsum_mult_l; change (fun x => w x) with w; rewrite T, Qcmult_1_r; apply Qcle_refl].
    apply qsum_le. intros x X. rewrite (Qcmult_comm (w x)). destruct (H x X) as [->|[_ B]]; [rewrite !Qcmult_0_r; apply Qcle_refl|]. apply Qcmult_le_compat_r; [exact B|now apply P].
Qed.

Lemma power_nonneg c n : (0 <= c)%Qc -> (0 <= power c n)%Qc.
Proof. intros C. induction n as [|n IH]; cbn [power]; [discriminate|]. now apply Qcmult_nonneg. Qed.

Lemma power_antitone c n m : (0 <= c)%Qc -> (c <= 1)%Qc -> n <= m -> (power c m <= power c n)%Qc.
Proof.
  intros C0 C1 L. induction L as [|m L IH]; [apply Qcle_refl|]. cbn [power]. apply Qcle_trans with (power c m); [|exact IH].
  rewrite <- (Qcmult_1_l (power c m)) at 2. apply Qcmult_le_compat_r; [exact C1|now apply power_nonneg].
Qed.

Lemma bernoulli e n : (0 <= e)%Qc -> (e <= 1)%Qc -> (power (1 - e)%Qc n * (1 + qnat n * e) <= 1)%Qc.
Proof.
  intros E0 E1. assert (C : (0 <= 1 - e)%Qc) by (now apply -> Qcle_minus_iff in E1). induction n as [|n IH]; cbn [power].
  - change (qnat 0) with 0%Qc. replace (1 * (1 + 0 * e))%Qc with 1%Qc by ring. apply Qcle_refl.
  - rewrite qnat_S. apply Qcle_trans with (power (1 - e)%Qc n * (1 + qnat n * e))%Qc; [|exact IH].
    replace ((1 - e) * power (1 - e) n * (1 + (1 + qnat n) * e))%Qc with (power (1 - e) n * ((1 + qnat n * e) - (1 + qnat n) * (e * e)))%Qc by ring.
    rewrite !(Qcmult_comm (power _ _)). apply Qcmult_le_compat_r; [|now apply power_nonneg]. apply Qcle_minus_iff.
    replace ((1 + qnat n * e) + - ((1 + qnat n * e) - (1 + qnat n) * (e * e)))%Qc with (qnat (S n) * (e * e))%Qc by (rewrite qnat_S; ring).
    apply Qcmult_nonneg; [|now apply Qcmult_nonneg]. apply (qnat_le 0). lia.
Qed.

Lemma archimedes x : exists n, (x <= qnat n)%Qc.
Proof.
  exists (Z.to_nat (Qnum (this x))). unfold qnat, Qcle, Q2Qc. cbn [this]. rewrite Qred_correct. destruct (this x) as [p q]. cbn [Qnum]. unfold Qle, inject_Z. cbn [Qnum Qden]. nia.
Qed.

Lemma power_small e delta : (0 < e)%Qc -> (e <= 1)%Qc -> (0 < delta)%Qc -> exists K, forall k, K <= k -> (power (1 - e)%Qc k <= delta)%Qc.
Proof.
  intros E0 E1 D. destruct (archimedes (/ (e * delta))) as (K & H). exists K. intros k L.
  assert (C : (0 <= 1 - e)%Qc) by (now apply -> Qcle_minus_iff in E1).
  apply Qcle_trans with (power (1 - e)%Qc K); [apply power_antitone; auto|].
  { apply Qcle_minus_iff. replace (1 + - (1 - e))%Qc with e by ring. now apply Qclt_le_weak. }
  assert (ED : (0 < e * delta)%Qc) by now apply Qcmult_pos.
  assert (B : (1 <= delta * (1 + qnat K * e))%Qc).
  { apply Qcle_trans with (delta * (qnat K * e))%Qc.
    - replace 1%Qc with (/ (e * delta) * (e * delta))%Qc; [|rewrite Qcmult_comm; apply Qcmult_inv_r; intros Z; rewrite Z in ED; now apply Qc_lt_irrefl in ED].
      replace (delta * (qnat K * e))%Qc with (qnat K * (e * delta))%Qc by ring. apply Qcmult_le_compat_r; [exact H|now apply Qclt_le_weak].
    - rewrite !(Qcmult_comm delta). apply Qcmult_le_compat_r; [|now apply Qclt_le_weak]. apply Qcle_minus_iff. replace (1 + qnat K * e + - (qnat K * e))%Qc with 1%Qc by ring. discriminate. }
  assert (P : (0 < 1 + qnat K * e)%Qc).
  { apply Qclt_le_trans with 1%Qc; [reflexivity|]. apply Qcle_minus_iff. replace (1 + qnat K * e + - (1))%Qc with (qnat K * e)%Qc by ring.
    apply Qcmult_nonneg; [apply (qnat_le 0); lia|now apply Qclt_le_weak]. }
  apply (Qcmult_lt_0_le_reg_r _ _ (1 + qnat K * e)%Qc P). apply Qcle_trans with 1%Qc; [|exact B]. apply bernoulli; auto. now apply Qclt_le_weak.
Qed.

Section Net.
Variable b : bn.
Hypothesis SN : sampled_net b.
Variable ev : dict string.
Hypothesis ND : NoDup (dkeys ev).
Hypothesis IN : incl (dkeys ev) (bnames b).
Let WB := sn_bn b SN.
Notation W := (worlds b ev).
Notation L := (possible b ev).

(** ** Possible states *)
Lemma entry_pos n s : positive_bn b -> In n (bnodes b) -> complete b s -> (0 < entry n s)%Qc.
Proof.
  intros P Hn C. pose proof (wb_nodes _ WB _ Hn) as WN. unfold entry, aget.
  apply (proj1 (Forall_forall _ _) (P n Hn)). apply nth_In. rewrite (wn_arr _ _ WN). apply ravel_lt. rewrite (wn_shape _ _ WN). apply inb_map.
  intros p [<-|Hp]; cbn [fst snd]; rewrite position_idx; apply idx_lt.
  - destruct (C (dn_name n) (in_map dn_name _ _ Hn)) as (a & A & I). rewrite (look_dget _ _ _ A). now rewrite (values_of_node b WB n Hn) in I.
  - destruct p as [v vals]. cbn [fst snd]. destruct (wn_pvals _ _ WN _ _ Hp) as (k & K & <- & <-).
    destruct (C (dn_name k) (in_map dn_name _ _ K)) as (a & A & I). rewrite (look_dget _ _ _ A). now rewrite (values_of_node b WB k K) in I.
Qed.

Lemma joint_pos : positive_bn b -> forall x, In x W -> (0 < joint b x)%Qc.
Proof.
  intros P x X. apply qprod_pos, Forall_forall. intros z Z. apply in_map_iff in Z as (n & <- & Hn). apply entry_pos; auto. now apply (worlds_complete b SN ev).
Qed.

Lemma mass_total : mass b (hard ev) [] = qsum (map (joint b) W).
Proof. rewrite (mass_worlds b ev ND IN). apply qsum_map_ext. intros s _. cbn [agrees forallb ind]. ring. Qed.

Lemma legal_nonempty : legal_ev b ev -> W <> [].
Proof.
  intros LE E. set (s := map (fun n => (dn_name n, match dget (dn_name n) ev with Some a => a | None => nth 0 (dn_values n) "" end)) (bnodes b)).
  assert (D : forall v, In v (bnames b) -> exists n, In n (bnodes b) /\ dn_name n = v /\ dget v s = Some (match dget v ev with Some a => a | None => nth 0 (dn_values n) "" end)).
  { intros v V. apply in_map_iff in V as (n & <- & Hn). exists n. split; [exact Hn|]. split; [reflexivity|]. apply In_dget.
    - unfold s, dkeys. rewrite map_map. exact (wb_names b WB).
    - unfold s. apply in_map_iff. now exists n. }
  assert (C : complete b s).
  { intros v V. destruct (D v V) as (n & Hn & <- & E1). eexists. split; [exact E1|]. rewrite (values_of_node b WB n Hn).
    destruct (dget (dn_name n) ev) as [a|] eqn:E2; [rewrite <- (values_of_node b WB n Hn); now apply LE|].
    apply nth_In. pose proof (proj1 (wn_values _ _ (wb_nodes _ WB _ Hn))). destruct (dn_values n); [contradiction|cbn; lia]. }
  assert (K : keeps ev s).
  { intros v a A. assert (V : In v (bnames b)) by (apply IN; eapply dget_Some_key; eauto). destruct (D v V) as (n & _ & _ & E1). now rewrite A in E1. }
  pose proof (canon_worlds b SN ev s C K IN ND) as H. rewrite E in H. destruct H.
Qed.

Lemma live_mass x : In x L -> (0 < mass b (hard ev) [])%Qc.
Proof. intros X. rewrite mass_total. now apply (total_pos b SN ev x). Qed.

Lemma post_mean q : (0 < mass b (hard ev) [])%Qc ->
  posterior b (hard ev) q = (qsum (map (fun s => joint b s * ind (agrees q s)) W) / qsum (map (joint b) W))%Qc.
Proof.
  intros T. unfold posterior. rewrite mass_total in T |- *. rewrite (mass_worlds b ev ND IN q).
  destruct (qeqb (qsum (map (joint b) W)) 0%Qc) eqn:E; [|reflexivity]. apply qeqb_true in E. rewrite E in T. now apply Qc_lt_irrefl in T.
Qed.

Lemma positive_live : positive_bn b -> forall x, In x W -> In x L.
Proof. intros P x X. apply filter_In. split; [exact X|]. apply qltb_true. now apply joint_pos. Qed.

Lemma positive_starts : positive_bn b -> starts_possible b ev.
Proof. intros P x X _. now apply joint_pos. Qed.

Lemma positive_connected : positive_bn b -> connected b ev.
Proof.
  intros P x y X Y. apply (live_world b ev) in X, Y. rewrite <- (setall_all b SN ev x y X Y).
  assert (H : forall vs, incl vs (free_vars b ev) -> forall x, In x W -> linked b ev x (setall vs y x)).
  { induction vs as [|v vs IH]; intros I z Z; [constructor|]. cbn [setall fold_left]. fold (setall vs y (dset v (look y v) z)).
    assert (V : In v (free_vars b ev)) by (apply I; now left).
    assert (Z' : In (dset v (look y v) z) W).
    { apply (worlds_dset b SN); auto. apply (worlds_value b SN ev); auto. now apply (free_spec b SN) in V as [V _]. }
    apply linked_step with v (look y v); [now apply positive_live|]. apply IH; [eauto using incl_tail|exact Z']. }
  apply H; [apply incl_refl|exact X].
Qed.

Lemma fwd_live y : starts_possible b ev -> In y W -> fwd b ev y = 0%Qc \/ In y L.
Proof.
  intros S Y. destruct (qeqb (fwd b ev y) 0%Qc) eqn:E; [left; now apply qeqb_true|right]. apply filter_In. split; [exact Y|]. apply qltb_true, S; [exact Y|].
  intros n Hn K. pose proof (entry_nonneg b n y (sn_nonneg b SN) Hn) as P. apply Qcle_lt_or_eq in P as [P|Z]; [exact P|symmetry in Z; exfalso].
  assert (F0 : fwd b ev y = 0%Qc); [|apply (proj2 (qeqb_true _ _)) in F0; congruence]. unfold fwd. apply qprod_zero. apply in_map_iff. exists n. split; [exact Z|].
  apply filter_In. split; [exact Hn|]. apply Bool.negb_true_iff. destruct (dmem (dn_name n) ev) eqn:M; [|reflexivity]. elim K. now apply dmem_In.
Qed.

(** ** Evidence upstream *)
Lemma upstream_joint : upstream b ev -> forall y z, In y W -> In z W -> (joint b y * fwd b ev z = joint b z * fwd b ev y)%Qc.
Proof.
  intros U y z Y Z. unfold joint. rewrite (qprod_split (fun n => entry n y) (fun n => dmem (dn_name n) ev)), (qprod_split (fun n => entry n z) (fun n => dmem (dn_name n) ev)).
  fold (fwd b ev y) (fwd b ev z).
  replace (map (fun n => entry n z) (filter (fun n => dmem (dn_name n) ev) (bnodes b))) with (map (fun n => entry n y) (filter (fun n => dmem (dn_name n) ev) (bnodes b))); [ring|].
  apply map_ext_in. intros n H. apply filter_In in H as [Hn M]. assert (K : In (dn_name n) (dkeys ev)) by now apply dmem_In.
  apply entry_ext. intros v V. assert (E : In v (dkeys ev)) by (destruct V as [<-|V]; [exact K|now apply (U n Hn K)]).
  destruct (dget_key v ev E) as (a & A). pose proof (worlds_keep b SN ev y IN Y v a A) as Ay. pose proof (worlds_keep b SN ev z IN Z v a A) as Az.
  now rewrite (look_dget _ _ _ Ay), (look_dget _ _ _ Az).
Qed.

Section Fixed.
Hypothesis ST : stochastic_bn b.
Variable order : list string.
Hypothesis TO : topological b order.
Hypothesis LE : legal_ev b ev.
Variable N : nat.
Hypothesis N0 : 0 < N.
Hypothesis FF : fwd_fine b ev N.

Lemma upstream_fwd : upstream b ev -> forall y, In y W -> (mass b (hard ev) [] * fwd b ev y = joint b y)%Qc.
Proof.
  intros U y Y. rewrite mass_total. rewrite Qcmult_comm, <- qsum_mult_l.
  transitivity (qsum (map (fun z => joint b y * fwd b ev z)%Qc W)).
  - apply qsum_map_ext. intros z Z. rewrite (upstream_joint U y z Y Z). ring.
  - rewrite qsum_mult_l, (fwd_total b SN ST ev order TO ND IN LE N N0 FF). ring.
Qed.

Hypothesis GF : gibbs_fine b ev N.
Hypothesis MF : mh_fine b ev N.
Hypothesis DF : div_fine b N.
Hypothesis VF : free_vars b ev <> [] -> Nat.divide (length (free_vars b ev)) N.
Variable t : transition.
Variable full : bool.
Hypothesis F : full = true \/ free_vars b ev <> [].
Notation c := (per_step t full (free_vars b ev)).
Notation stepm := (mean N c (stepp b t full (free_vars b ev))).
Variable vs : list string.
Hypothesis VS : incl vs (bnames b).

Lemma unbiased burnIn n q m : upstream b ev -> (0 < mass b (hard ev) [])%Qc -> 0 < n -> is_inst b vs q -> length (unset ev order) + (burnIn + n) * c <= m ->
  expectation N m (fun g => estimate q (mcmc_marginals t burnIn full n g b order vs ev)) = posterior b (hard ev) q.
Proof.
  intros U MP n0 Q M. rewrite (estimate_mean b SN ST ev order TO ND IN LE N N0 FF t full F vs VS burnIn n q m n0 Q M).
  set (h := fun s => ind (agrees q s)). set (K := mass b (hard ev) []) in *. assert (KZ : K <> 0%Qc) by (intros E; rewrite E in MP; now apply Qc_lt_irrefl in MP).
  assert (EQ : forall k, qsum (map (fun y => fwd b ev y * iter stepm k h y)%Qc W) = posterior b (hard ev) q).
  { intros k. apply (Qcmult_cancel K); [exact KZ|]. rewrite <- qsum_mult_l.
    transitivity (qsum (map (fun y => joint b y * iter stepm k h y)%Qc W)).
    { apply qsum_map_ext. intros y Y. rewrite <- (upstream_fwd U y Y). fold K. ring. }
    transitivity (qsum (map (fun y => joint b y * h y)%Qc W)).
    - apply (Qcmult_cancel (powc (qnat N * qnat N) (k * c))); [apply powc_neq0, NN_neq0; exact N0|].
      rewrite <- (burn_invariant b ev N c (stepp b t full (free_vars b ev)) k (step_invariant b ev N N0 SN GF MF DF VF t full F) h).
      rewrite <- qsum_mult_l. apply qsum_map_ext. intros y Y. rewrite (eq_mean N N0), (mean_burn N N0). ring.
    - unfold h. rewrite <- (mass_worlds b ev ND IN). unfold posterior. fold K. destruct (qeqb K 0%Qc) eqn:E; [now apply qeqb_true in E|].
      unfold Qcdiv. rewrite (Qcmult_comm (mass _ _ _)), Qcmult_assoc, Qcmult_inv_r by exact KZ. ring. }
  transitivity (/ qnat n * bigsum n (fun _ => posterior b (hard ev) q))%Qc.
  - f_equal. unfold bigsum. apply qsum_map_ext. intros j _. apply EQ.
  - unfold bigsum. rewrite qsum_const, seq_length, Qcmult_assoc, (Qcmult_comm (/ _)), Qcmult_inv_r by now apply qnat_neq0. ring.
Qed.

End Fixed.

(** ** Convergence *)
(** After [r] steps every possible state has been reached with probability [e] at least. *)
Definition mixing (full : bool) (r : nat) (e : Qc) : Prop :=
  0 < r /\ (0 < e)%Qc /\ (e <= 1)%Qc /\ forall N t, 0 < N -> gibbs_fine b ev N -> mh_fine b ev N -> div_fine b N ->
    (free_vars b ev <> [] -> Nat.divide (length (free_vars b ev)) N) -> forall x y, In x L -> In y L ->
    reaches L (iter (mean N (per_step t full (free_vars b ev)) (stepp b t full (free_vars b ev))) r) e x y.

Lemma powc_range a m : (0 < a)%Qc -> (a <= 1)%Qc -> (0 < powc a m)%Qc /\ (powc a m <= 1)%Qc.
Proof.
  intros A0 A1. split; [now apply powc_pos|]. rewrite <- power_powc. apply (power_antitone a 0 m); [now apply Qclt_le_weak|exact A1|lia].
Qed.

Lemma any_range d full : (0 < d)%Qc -> (d <= 1)%Qc -> full = true \/ free_vars b ev <> [] -> (0 < chance_of_any b ev d full)%Qc /\ (chance_of_any b ev d full <= 1)%Qc.
Proof.
  intros d0 d1 F. unfold chance_of_any. destruct full; [now apply powc_range|]. destruct F as [F'|F']; [discriminate|].
  assert (LP : 0 < length (free_vars b ev)) by (destruct (free_vars b ev); [contradiction|cbn; lia]).
  assert (I : (0 < / qnat (length (free_vars b ev)))%Qc) by (apply Qcinv_pos; now apply qnat_pos).
  apply powc_range; [now apply Qcmult_pos|].
  apply Qcle_trans with (/ qnat (length (free_vars b ev)))%Qc.
  - rewrite Qcmult_comm. rewrite <- (Qcmult_1_l (/ _)) at 2. apply Qcmult_le_compat_r; [exact d1|now apply Qclt_le_weak].
  - apply Qcle_trans with (qnat (length (free_vars b ev)) * / qnat (length (free_vars b ev)))%Qc; [|rewrite Qcmult_inv_r; [apply Qcle_refl|now apply qnat_neq0]].
    rewrite <- (Qcmult_1_l (/ _)) at 1. apply Qcmult_le_compat_r; [apply (qnat_le 1); lia|now apply Qclt_le_weak].
Qed.

Lemma round_pos full : full = true \/ free_vars b ev <> [] -> 0 < round b ev full.
Proof. intros F. unfold round. destruct full; [lia|]. destruct F as [F'|F']; [discriminate|]. destruct (free_vars b ev); [contradiction|cbn; lia]. Qed.

Lemma mixing_positive full : positive_bn b -> full = true \/ free_vars b ev <> [] -> exists e, mixing full (round b ev full) e.
Proof.
  intros P F. destruct (move_low b SN ev) as (d & d0 & d1 & LOW). destruct (any_range d full d0 d1 F) as [A B]. exists (chance_of_any b ev d full).
  split; [now apply round_pos|]. split; [exact A|]. split; [exact B|]. intros N t N0 GF MF DF VF x y X Y.
  apply (step_reaches b SN ev N N0 GF MF DF VF d d0 LOW t full x y (positive_live P) F X Y).
Qed.

Lemma mixing_connected full : connected b ev -> full = true \/ free_vars b ev <> [] -> exists r e, mixing full r e.
Proof.
  intros CO F. destruct (move_low b SN ev) as (d & d0 & d1 & LOW). destruct (any_range d full d0 d1 F) as [A B].
  destruct (links_bound b ev CO) as (K & K0 & WL). exists (K * round b ev full), (powc (chance_of_any b ev d full) K).
  destruct (powc_range _ K A B) as [A' B']. split; [pose proof (round_pos full F); nia|]. split; [exact A'|]. split; [exact B'|].
  intros N t N0 GF MF DF VF x y X Y. exact (rounds b SN ev N N0 GF MF DF VF d d0 LOW K t full x y WL F X Y).
Qed.

Section Near.
Variable N : nat.
Hypothesis N0 : 0 < N.
Hypothesis GF : gibbs_fine b ev N.
Hypothesis MF : mh_fine b ev N.
Hypothesis DF : div_fine b N.
Hypothesis VF : free_vars b ev <> [] -> Nat.divide (length (free_vars b ev)) N.
Variable t : transition.
Variable full : bool.
Hypothesis F : full = true \/ free_vars b ev <> [].
Notation c := (per_step t full (free_vars b ev)).
Notation stepm := (mean N c (stepp b t full (free_vars b ev))).
Variable r : nat.
Variable e : Qc.
Hypothesis MX : mixing full r e.

Lemma value_near k q x : In x L -> let p := power (1 - e)%Qc (k / r) in
  (posterior b (hard ev) q - p <= iter stepm k (fun s => ind (agrees q s)) x)%Qc /\
  (iter stepm k (fun s => ind (agrees q s)) x <= posterior b (hard ev) q + p)%Qc.
Proof.
  intros X p. destruct MX as (R0 & E0 & E1 & RE). rewrite (post_mean q (live_mass x X)). unfold p. rewrite power_powc.
  apply (steps_near b SN ev N N0 GF MF DF VF t full r e k); auto; [now apply Qclt_le_weak|].
  intros s S. destruct (agrees q s); cbn [ind]; split; discriminate.
Qed.

Lemma chain_near burnIn n j q m x : In x L -> j < n -> (burnIn + S j) * c <= m ->
  let C := chance N m (fun g => shows q j (generate_chain t burnIn full g b n (x, 0%nat) (Some ev))) in
  let p := power (1 - e)%Qc ((burnIn + S j) / r) in
  (posterior b (hard ev) q - p <= C)%Qc /\ (C <= posterior b (hard ev) q + p)%Qc.
Proof.
  intros X J M C p. assert (X' := live_world b ev x X).
  pose proof (chance_burn b ev N N0 SN t full burnIn n j x q m (worlds_complete b SN ev x X') (worlds_keep b SN ev x IN X') F J M) as H. cbv zeta in H. fold C in H.
  replace C with (iter stepm (burnIn + S j) (fun s => ind (agrees q s)) x); [now apply value_near|].
  rewrite <- (mean_burn N N0). apply mean_eq; [exact N0|]. symmetry. exact H.
Qed.

Hypothesis ST : stochastic_bn b.
Variable order : list string.
Hypothesis TO : topological b order.
Hypothesis LE : legal_ev b ev.
Hypothesis FF : fwd_fine b ev N.
Hypothesis SP : starts_possible b ev.
Variable vs : list string.
Hypothesis VS : incl vs (bnames b).

Lemma estimate_near burnIn n q m : 0 < n -> is_inst b vs q -> length (unset ev order) + (burnIn + n) * c <= m ->
  let E := expectation N m (fun g => estimate q (mcmc_marginals t burnIn full n g b order vs ev)) in
  let p := power (1 - e)%Qc (burnIn / r) in
  (posterior b (hard ev) q - p <= E)%Qc /\ (E <= posterior b (hard ev) q + p)%Qc.
Proof.
  intros n0 Q M E p. unfold E. rewrite (estimate_mean b SN ST ev order TO ND IN LE N N0 FF t full F vs VS burnIn n q m n0 Q M). clear E.
  destruct MX as (R0 & E0 & E1 & _).
  unfold bigsum. rewrite <- qsum_mult_l. apply (convex (fun _ => / qnat n)%Qc).
  - intros _ _. apply Qclt_le_weak, Qcinv_pos. now apply qnat_pos.
  - rewrite qsum_const, seq_length. apply Qcmult_inv_r. now apply qnat_neq0.
  - intros j _. right. apply convex.
    + intros y _. now apply fwd_nonneg.
    + exact (fwd_total b SN ST ev order TO ND IN LE N N0 FF).
    + intros y Y. destruct (fwd_live y SP Y) as [Z|Y']; [now left|right]. destruct (value_near (burnIn + S j) q y Y') as [A B].
      assert (R : (power (1 - e)%Qc ((burnIn + S j) / r) <= p)%Qc).
      { apply power_antitone.
        - apply -> Qcle_minus_iff. exact E1.
        - apply Qcle_minus_iff. replace (1 + - (1 - e))%Qc with e by ring. now apply Qclt_le_weak.
        - apply Nat.div_le_mono; lia. }
      split; [eapply Qcle_trans; [|exact A]|eapply Qcle_trans; [exact B|]].
      * apply Qcplus_le_compat; [apply Qcle_refl|]. now apply Qcopp_le_compat.
      * apply Qcplus_le_compat; [apply Qcle_refl|exact R].
Qed.
End Near.
End Net.
