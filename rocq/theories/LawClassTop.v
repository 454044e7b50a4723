(** The limit of the chains and of the estimates, without the condition that all possible
    states are linked. *)
From Coq Require Import Field QArith.
From Verif Require Import Base NDArray Factor Exact Spec OrderSpec BaseFacts NDArrayFacts FactorFacts FactorProofs SpecFacts Sampling MCSpec MCFacts MCProof MCTop MCChain MCForward MCMarginal
  LawSpec LawCount LawKernel LawOne LawChain LawPost LawMean LawErgodic LawForward LawMCMC LawEstimate LawTop LawLinked LawLarge LawSpread LawClass.

Section Net.
Variable b : bn.
Hypothesis SN : sampled_net b.
Variable ev : dict string.
Hypothesis ND : NoDup (dkeys ev).
Hypothesis IN : incl (dkeys ev) (bnames b).
Variable cl : dict string -> dict string -> bool.
Hypothesis TC : tells b ev cl.
Notation W := (worlds b ev).
Notation L := (possible b ev).

Lemma class_closed x : In x L -> forall s v a, In s L -> In (dset v a s) L -> cl x (dset v a s) = cl x s.
Proof.
  intros X s v a S Y. apply eq_true_iff_eq. rewrite (TC x _ X Y), (TC x s X S). split; intros H.
  - apply (linked_trans b ev) with (dset v a s); [exact H|]. apply (linked_sym b SN ev); [exact S|]. apply linked_step with v a; [exact Y|constructor].
  - now apply linked_next.
Qed.

Lemma class_self x : In x L -> In x (filter (cl x) L).
Proof. intros X. apply filter_In. split; [exact X|]. apply TC; auto. constructor. Qed.

Lemma class_linked x y z : In x L -> In y (filter (cl x) L) -> In z (filter (cl x) L) -> linked b ev y z.
Proof.
  intros X Y Z. apply filter_In in Y as [Y E1], Z as [Z E2]. apply TC in E1; auto. apply TC in E2; auto.
  apply (linked_trans b ev) with x; [|exact E2]. now apply (linked_sym b SN ev).
Qed.

(** The same class from everywhere in it. *)
Lemma class_same x y : In x L -> In y (filter (cl x) L) -> filter (cl y) L = filter (cl x) L.
Proof.
  intros X Y. apply filter_In in Y as [Y E]. apply TC in E; auto. apply filter_ext_in. intros z Z. apply eq_true_iff_eq. rewrite (TC y z Y Z), (TC x z X Z). split; intros H.
  - now apply (linked_trans b ev) with y.
  - apply (linked_trans b ev) with x; [|exact H]. now apply (linked_sym b SN ev).
Qed.

Definition mixing_classes (full : bool) (r : nat) (e : Qc) : Prop :=
  0 < r /\ (0 < e)%Qc /\ (e <= 1)%Qc /\ forall N t, 0 < N -> gibbs_fine b ev N -> mh_fine b ev N -> div_fine b N ->
    (free_vars b ev <> [] -> Nat.divide (length (free_vars b ev)) N) -> forall x y, In x L -> In y L -> linked b ev x y ->
    reaches L (iter (mean N (per_step t full (free_vars b ev)) (stepp b t full (free_vars b ev))) r) e x y.

Lemma class_links : exists K, 0 < K /\ forall x y, In x L -> In y L -> linked b ev x y -> exists k, k <= K /\ linkn b ev k x y.
Proof.
  assert (H : forall ps, incl ps (list_prod L L) -> exists K, forall p, In p ps -> linked b ev (fst p) (snd p) -> exists k, k <= K /\ linkn b ev k (fst p) (snd p)).
  { induction ps as [|[x y] ps IH]; intros I; [exists 0; intros p []|]. destruct IH as (K & H); [intros p P; apply I; now right|].
    assert (XY := I _ (or_introl eq_refl)). apply in_prod_iff in XY as [X Y]. destruct (cl x y) eqn:E.
    - apply TC in E; auto. destruct (linked_linkn b ev x y E) as (k & KE). exists (K + k). intros p [<-|P] PL; [exists k; split; [lia|exact KE]|].
      destruct (H p P PL) as (k' & LE & E'). exists k'. split; [lia|exact E'].
    - exists K. intros p [<-|P] PL; [|now apply H]. cbn [fst snd] in PL. apply TC in PL; auto. rewrite PL in E. discriminate. }
  destruct (H (list_prod L L) (incl_refl _)) as (K & HK). exists (S K). split; [lia|]. intros x y X Y XY.
  destruct (HK (x, y) (in_prod L L x y X Y) XY) as (k & LE & E). exists k. split; [lia|exact E].
Qed.

Lemma mixing_some full : full = true \/ free_vars b ev <> [] -> exists r e, mixing_classes full r e.
Proof.
  intros F. destruct (move_low b SN ev) as (d & d0 & d1 & LOW). destruct (any_range b ev d full d0 d1 F) as [A B].
  destruct class_links as (K & K0 & WL). exists (K * round b ev full), (powc (chance_of_any b ev d full) K).
  destruct (powc_range _ K A B) as [A' B']. split; [pose proof (round_pos b ev full F); nia|]. split; [exact A'|]. split; [exact B'|].
  intros N t N0 GF MF DF VF x y X Y XY. destruct (WL x y X Y XY) as (k & LE & E). exact (blocks_reach b SN ev N N0 GF MF DF VF d d0 LOW t full k x y F X E K LE).
Qed.

Lemma local_mean x q : local_posterior b ev cl x q =
  (qsum (map (fun s => joint b s * ind (agrees q s)) (filter (cl x) L)) / qsum (map (joint b) (filter (cl x) L)))%Qc.
Proof. unfold local_posterior. rewrite qsum_filter. f_equal. apply qsum_map_ext. intros s _. destruct (agrees q s); cbn [ind]; ring. Qed.

Lemma local_range x q : In x L -> (0 <= local_posterior b ev cl x q)%Qc /\ (local_posterior b ev cl x q <= 1)%Qc.
Proof.
  intros X. rewrite local_mean. assert (T := class_pos b SN ev (cl x) x (class_self x X)). split.
  - apply Qcdiv_nonneg; [|exact T]. apply qsum_nonneg, Forall_forall. intros w Z. apply in_map_iff in Z as (s & <- & S). apply Qcmult_nonneg; [now apply joint_nonneg|]. destruct (agrees q s); discriminate.
  - apply (Qcmult_lt_0_le_reg_r _ _ _ T). unfold Qcdiv. rewrite <- Qcmult_assoc, (Qcmult_comm (/ _)), Qcmult_inv_r, Qcmult_1_r, Qcmult_1_l.
    + apply qsum_le. intros s S. pose proof (joint_nonneg b SN s). destruct (agrees q s); cbn [ind]; [rewrite Qcmult_1_r; apply Qcle_refl|now rewrite Qcmult_0_r].
    + intros Z. rewrite Z in T. now apply Qc_lt_irrefl in T.
Qed.

(** With all states linked it is the posterior. *)
Lemma local_connected x q : connected b ev -> In x L -> local_posterior b ev cl x q = posterior b (hard ev) q.
Proof.
  intros CO X. rewrite local_mean, (post_mean b ev ND IN q (live_mass b SN ev ND IN x X)).
  assert (E : filter (cl x) L = L).
  { assert (H : forall l, incl l L -> filter (cl x) l = l).
    { induction l as [|y l IH]; intros I; [reflexivity|]. cbn [filter]. assert (Y : In y L) by (apply I; now left). rewrite (proj2 (TC x y X Y) (CO x y X Y)). rewrite IH; [reflexivity|]. intros z Z. apply I. now right. }
    apply H, incl_refl. }
  rewrite E. rewrite (sum_live b SN ev). f_equal. transitivity (qsum (map (fun s => joint b s * 1)%Qc L)); [apply qsum_map_ext; intros; ring|].
  rewrite (sum_live b SN ev (fun _ => 1%Qc)). apply qsum_map_ext. intros; ring.
Qed.

Section Near.
Variable N : nat.
Hypothesis N0 : 0 < N.
Hypothesis GF : gibbs_fine b ev N.
Hypothesis MF : mh_fine b ev N.
Hypothesis DF : div_fine b N.
Hypothesis VF : free_vars b ev <> [] -> Nat.divide (length (free_vars b ev)) N.
Variable t : transition.
Variable full : bool.
Hypothesis F : full = true \/ free_vars b ev <> [].
Notation c := (per_step t full (free_vars b ev)).
Notation stepper := (stepp b t full (free_vars b ev)).
Notation stepm := (mean N c stepper).
Variable r : nat.
Variable e : Qc.
Hypothesis MX : mixing_classes full r e.

Lemma local_near k q x : In x L -> let p := power (1 - e)%Qc (k / r) in
  (local_posterior b ev cl x q - p <= iter stepm k (fun s => ind (agrees q s)) x)%Qc /\
  (iter stepm k (fun s => ind (agrees q s)) x <= local_posterior b ev cl x q + p)%Qc.
Proof.
  intros X p. destruct MX as (R0 & E0 & E1 & RE). rewrite local_mean. unfold p. rewrite power_powc.
  apply (class_near b SN ev (cl x) (class_closed x X) N N0 GF MF DF VF t full r e k); auto.
  - now apply Qclt_le_weak.
  - intros y z Y Z. apply RE; auto; [apply filter_In in Y; apply Y|apply filter_In in Z; apply Z|]. now apply (class_linked x).
  - intros s S. destruct (agrees q s); cbn [ind]; split; discriminate.
  - now apply class_self.
Qed.

Lemma local_chain burnIn n j q m x : In x L -> j < n -> (burnIn + S j) * c <= m ->
  let C := chance N m (fun g => shows q j (generate_chain t burnIn full g b n (x, 0%nat) (Some ev))) in
  let p := power (1 - e)%Qc ((burnIn + S j) / r) in
  (local_posterior b ev cl x q - p <= C)%Qc /\ (C <= local_posterior b ev cl x q + p)%Qc.
Proof.
  intros X J M C p. assert (X' := live_world b ev x X).
  pose proof (chance_burn b ev N N0 SN t full burnIn n j x q m (worlds_complete b SN ev x X') (worlds_keep b SN ev x IN X') F J M) as H. cbv zeta in H. fold C in H.
  replace C with (iter stepm (burnIn + S j) (fun s => ind (agrees q s)) x); [now apply local_near|].
  rewrite <- (mean_burn N N0). apply mean_eq; [exact N0|]. symmetry. exact H.
Qed.

Hypothesis ST : stochastic_bn b.
Variable order : list string.
Hypothesis TO : topological b order.
Hypothesis LE : legal_ev b ev.
Hypothesis FF : fwd_fine b ev N.
Hypothesis SP : starts_possible b ev.
Variable vs : list string.
Hypothesis VS : incl vs (bnames b).

Lemma start_sum (g : dict string -> Qc) : qsum (map (fun y => start_chance b ev y * g y)%Qc L) = qsum (map (fun y => fwd b ev y * g y)%Qc W).
Proof.
  unfold possible. rewrite qsum_filter. apply qsum_map_ext. intros y Y. destruct (qltb 0%Qc (joint b y)) eqn:E; [reflexivity|].
  destruct (fwd_live b SN ev y SP Y) as [Z|P]; [rewrite Z; ring|]. apply (live_pos b ev) in P. apply qltb_true in P. rewrite P in E. discriminate.
Qed.

Lemma within x y p : (- p <= x - y)%Qc -> (x - y <= p)%Qc -> (y - p <= x)%Qc /\ (x <= y + p)%Qc.
Proof.
  intros A B. split.
  - apply Qcle_minus_iff. apply -> Qcle_minus_iff in A. replace (x + - (y - p))%Qc with (x - y + - - p)%Qc by ring. exact A.
  - apply Qcle_minus_iff. apply -> Qcle_minus_iff in B. replace (y + p + - x)%Qc with (p + - (x - y))%Qc by ring. exact B.
Qed.
Lemma within_inv x y p : (y - p <= x)%Qc -> (x <= y + p)%Qc -> (- p <= x - y)%Qc /\ (x - y <= p)%Qc.
Proof.
  intros A B. split.
  - apply Qcle_minus_iff. apply -> Qcle_minus_iff in A. replace (x - y + - - p)%Qc with (x + - (y - p))%Qc by ring. exact A.
  - apply Qcle_minus_iff. apply -> Qcle_minus_iff in B. replace (p + - (x - y))%Qc with (y + p + - x)%Qc by ring. exact B.
Qed.

Lemma local_estimate burnIn n q m : 0 < n -> is_inst b vs q -> length (unset ev order) + (burnIn + n) * c <= m ->
  let E := expectation N m (fun g => estimate q (mcmc_marginals t burnIn full n g b order vs ev)) in
  let p := power (1 - e)%Qc (burnIn / r) in
  let mu := qsum (map (fun y => start_chance b ev y * local_posterior b ev cl y q)%Qc L) in
  (mu - p <= E)%Qc /\ (E <= mu + p)%Qc.
Proof.
  intros n0 Q M E p mu. unfold E. rewrite (estimate_mean b SN ST ev order TO ND IN LE N N0 FF t full F vs VS burnIn n q m n0 Q M). clear E.
  destruct MX as (R0 & E0 & E1 & _). unfold mu. rewrite start_sum. clear mu.
  unfold bigsum. rewrite <- qsum_mult_l. apply (convex (fun _ => / qnat n)%Qc).
  - intros _ _. apply Qclt_le_weak, Qcinv_pos. now apply qnat_pos.
  - rewrite qsum_const, seq_length. apply Qcmult_inv_r. now apply qnat_neq0.
  - intros j _. right. apply within.
    all: match goal with |- context[(qsum (map ?f W) - qsum (map ?g W))%Qc] => replace (qsum (map f W) - qsum (map g W))%Qc with (qsum (map (fun y => fwd b ev y * (iter stepm (burnIn + S j) (fun s => ind (agrees q s)) y - local_posterior b ev cl y q))%Qc W)) end.
    2, 4: rewrite (qsum_map_ext _ (fun y => fwd b ev y * iter stepm (burnIn + S j) (fun s => ind (agrees q s)) y + - (1) * (fwd b ev y * local_posterior b ev cl y q))%Qc) by (intros; ring); rewrite qsum_plus, qsum_mult_l; ring.
    all: apply (convex (fwd b ev) (fun y => iter stepm (burnIn + S j) (fun s => ind (agrees q s)) y - local_posterior b ev cl y q)%Qc W (- p)%Qc p).
    1, 4: intros y _; now apply fwd_nonneg.
    1, 3: exact (fwd_total b SN ST ev order TO ND IN LE N N0 FF).
    all: intros y Y; destruct (fwd_live b SN ev y SP Y) as [Z|Y']; [now left|right]; destruct (local_near (burnIn + S j) q y Y') as [A B]; cbv zeta in A, B;
      (assert (R : (power (1 - e)%Qc ((burnIn + S j) / r) <= p)%Qc);
      [apply power_antitone; [apply -> Qcle_minus_iff; exact E1|apply Qcle_minus_iff; replace (1 + - (1 - e))%Qc with e by ring; now apply Qclt_le_weak|apply Nat.div_le_mono; lia]|]);
      destruct (within_inv _ _ _ A B) as [A' B']; split; [eapply Qcle_trans; [|exact A']; now apply Qcopp_le_compat|eapply Qcle_trans; [exact B'|exact R]].
Qed.

(** ** Spread around the posterior of the class of the start *)
Variable q : dict string.
Hypothesis Q : is_inst b vs q.
Notation x0 := (fold_left (fun d p => dset (fst p) (snd p) d) ev []).
Notation c0 := (length (unset ev order)).
Definition lp (s : dict string) : Qc := local_posterior b ev cl (standing_for b ev s) q.
Notation z mu := (fun s => ind (agrees q s) - mu)%Qc.

Lemma QI : incl (dkeys q) (bnames b).
Proof. intros v V. apply VS. now apply Q. Qed.

Lemma standing_same s : complete b s -> standing_for b ev s = standing_for b ev (canon b s).
Proof.
  intros C. unfold standing_for. f_equal. apply filter_ext_in. intros y Y. apply (agrees_canon b SN ev); auto. now apply (live_world b ev).
Qed.

Lemma standing_self y : In y L -> standing_for b ev y = y.
Proof.
  intros Y. unfold standing_for. destruct (filter (fun s => agrees s y) L) as [|s l] eqn:E.
  - assert (H : In y (filter (fun s => agrees s y) L)) by (apply filter_In; split; [exact Y|]; apply (LawEstimate.agrees_refl b SN ev); now apply (live_world b ev)). rewrite E in H. destruct H.
  - cbn [hd]. assert (H : In s (filter (fun s => agrees s y) L)) by (rewrite E; now left). apply filter_In in H as [S A].
    apply (agrees_worlds b SN ev); auto; now apply (live_world b ev).
Qed.

Definition whole burnIn n : rprog := rfollow c0 (initp b ev order) (fun s l => square (rfollow (burnIn * c) (burnp c stepper burnIn) (tally stepper c (z (lp s)) n)) s l).

Definition miss burnIn n (g : rng) : Qc :=
  match get_sample g 0 b order ev with
  | Ok (s, _) => let x := (estimate q (mcmc_marginals t burnIn full n g b order vs ev) - lp s)%Qc in (x * x)%Qc
  | Err _ => 0%Qc
  end.

Lemma miss_whole burnIn n m l : 0 < n -> In l (streams N m) -> c0 + (burnIn + n) * c <= m ->
  miss burnIn n (gen l) = (/ qnat n * / qnat n * whole burnIn n x0 (firstn (c0 + (burnIn * c + n * c))%nat l))%Qc.
Proof.
  intros n0 Hl M. destruct (sample_total b SN ev order TO (gen l) 0 (stream_ok N m l Hl) ND LE) as (s & k & E & C & K).
  unfold miss. rewrite E. cbv zeta. rewrite (estimate_tally b SN ev order TO ND LE N N0 t full F q (lp s) vs VS burnIn n m l n0 Q Hl M).
  unfold run, whole, rfollow. pose proof (init_computes b ev order (gen l) x0 0) as IC. cbv beta in IC. unfold get_sample in E.
  assert (IC2 := eq_trans (eq_sym E) IC). clear IC E.
  assert (LL : length l = m) by exact (proj1 (Forall_forall _ _) (streams_length N m) l Hl).
  assert (DL : dl (gen l) 0 c0 = firstn c0 (firstn (c0 + (burnIn * c + n * c)) l)) by (rewrite dl_gen by (rewrite LL; lia); rewrite firstn_firstn; f_equal; lia).
  rewrite DL in IC2. destruct (initp b ev order x0 _) as [s'|]; cbn [rbind] in IC2; [|discriminate]. inversion IC2; subst s' k. unfold square. cbv beta. ring.
Qed.

Lemma whole_mean burnIn n : rmean N (c0 + (burnIn * c + n * c)) (whole burnIn n) x0 =
  qsum (map (fun y => fwd b ev y * iter stepm burnIn (rmean N (n * c) (square (tally stepper c (z (lp y)) n))) y)%Qc W).
Proof.
  assert (SQ : forall mu s, rmean N (burnIn * c + n * c) (square (rfollow (burnIn * c) (burnp c stepper burnIn) (tally stepper c (z mu) n))) s =
    iter stepm burnIn (rmean N (n * c) (square (tally stepper c (z mu) n))) s).
  { intros mu s. transitivity (rmean N (burnIn * c + n * c) (rfollow (burnIn * c) (burnp c stepper burnIn) (square (tally stepper c (z mu) n))) s).
    - apply rmean_ext. intros l _. unfold square, rfollow. destruct (burnp _ _ _ _ _); [reflexivity|ring].
    - rewrite (rmean_follow N N0). now rewrite (mean_burn N N0). }
  unfold whole. rewrite (rmean_follow N N0), (init_mean b SN ST ev order TO ND IN LE N N0 FF).
  - apply qsum_map_ext. intros y Y. f_equal. rewrite <- SQ. reflexivity.
  - intros s C K. transitivity (iter stepm burnIn (rmean N (n * c) (square (tally stepper c (z (lp s)) n))) s); [rewrite <- SQ; reflexivity|].
    transitivity (iter stepm burnIn (rmean N (n * c) (square (tally stepper c (z (lp (canon b s))) n))) (canon b s)); [|rewrite <- SQ; reflexivity].
    replace (lp (canon b s)) with (lp s) by (unfold lp; now rewrite standing_same). rewrite <- !(mean_burn N N0).
    apply (burn_same_mean b SN ev N N0 t full F); [|now apply canon_same]. intros x y S. unfold rmean. f_equal. apply qsum_map_ext.
    intros l Hl. unfold square. rewrite (tally_same b SN ev N N0 t full F q QI (lp s) n x y l); [reflexivity| |exact S]. exact (proj1 (Forall_forall _ _) (streams_length N (n * c)) l Hl).
Qed.

Lemma local_square burnIn n m : 0 < n -> c0 + (burnIn + n) * c <= m ->
  (expectation N m (miss burnIn n) <= (1 + (1 + 1) * (qnat r / e)) / qnat n)%Qc.
Proof.
  intros n0 M. assert (NZ : powc (qnat N * qnat N) m <> 0%Qc) by (apply NNc; exact N0).
  assert (EQ : expectation N m (miss burnIn n) = (/ qnat n * / qnat n * qsum (map (fun y => fwd b ev y * iter stepm burnIn (rmean N (n * c) (square (tally stepper c (z (lp y)) n))) y)%Qc W))%Qc).
  { rewrite <- whole_mean. set (K := c0 + (burnIn * c + n * c)). assert (KM : K <= m) by (unfold K; nia). unfold expectation. rewrite streams_count.
    transitivity (qsum (map (fun l => / qnat n * / qnat n * whole burnIn n x0 (firstn K l))%Qc (streams N m)) / powc (qnat N * qnat N) m)%Qc.
    { f_equal. apply qsum_map_ext. intros l Hl. now apply (miss_whole burnIn n m). }
    rewrite qsum_mult_l, (streams_prefix N K m (whole burnIn n x0) KM), (rmean_eq N N0).
    replace m with ((m - K) + K) in NZ |- * at 2 by lia. rewrite powc_add in NZ |- *.
    unfold Qcdiv. set (A := powc (qnat N * qnat N) (m - K)) in *. set (B := powc (qnat N * qnat N) K) in *. field. split; [now apply qnat_neq0|].
    split; intros Z; apply NZ; rewrite Z; ring. }
  rewrite EQ. clear EQ. set (B := (1 + (1 + 1) * (qnat r / e))%Qc).
  assert (NP : (0 < / qnat n)%Qc) by (apply Qcinv_pos; now apply qnat_pos). assert (MX' := MX). destruct MX' as (R0 & E0 & E1 & _).
  assert (H : (qsum (map (fun y => fwd b ev y * iter stepm burnIn (rmean N (n * c) (square (tally stepper c (z (lp y)) n))) y) W) <= qnat n * B)%Qc).
  { apply (convex (fwd b ev) _ W 0%Qc).
    - intros y _. now apply fwd_nonneg.
    - exact (fwd_total b SN ST ev order TO ND IN LE N N0 FF).
    - intros y YW. destruct (fwd_live b SN ev y SP YW) as [Z|Y]; [now left|right]. set (C := filter (cl y) L).
      assert (AP := step_apart b SN ev (cl y) (class_closed y Y) N N0 GF MF DF VF t full F).
      assert (TA := apart_class b ev (cl y) _ AP). fold C in TA. assert (IA := iter_avg C _ burnIn TA). assert (YC := class_self y Y : In y C).
      assert (LY : lp y = local_posterior b ev cl y q) by (unfold lp; now rewrite standing_self).
      assert (G1 : forall s, In s C -> (0 <= rmean N (n * c) (square (tally stepper c (z (lp y)) n)) s)%Qc).
      { intros s _. unfold rmean. apply Qcdiv_nonneg; [|apply powc_pos; apply Qcmult_pos; now apply qnat_pos].
        apply qsum_nonneg, Forall_forall. intros w Z. apply in_map_iff in Z as (l & <- & _). unfold square.
        set (a := tally stepper c (z (lp y)) n s l). destruct (Qclt_le_dec a 0) as [A|A]; [|now apply Qcmult_nonneg].
        replace (a * a)%Qc with ((0 + - a) * (0 + - a))%Qc by ring. apply Qclt_le_weak in A. apply -> Qcle_minus_iff in A. now apply Qcmult_nonneg. }
      assert (G2 : forall s, In s C -> (rmean N (n * c) (square (tally stepper c (z (lp y)) n)) s <= qnat n * B)%Qc).
      { intros s S. apply (spread N N0 stepper c C TA (fun s => ind (agrees q s)) (lp y) e r R0 E0 E1).
        - intros k x X. rewrite LY. assert (XL : In x L) by (apply filter_In in X; apply X).
          replace (local_posterior b ev cl y q) with (local_posterior b ev cl x q); [exact (local_near k q x XL)|]. unfold local_posterior. now rewrite (class_same y x Y X).
        - intros x _. destruct (agrees q x); split; discriminate.
        - rewrite LY. exact (local_range y q Y).
        - exact S. }
      split.
      + now apply (av_mono _ _ IA).
      + assert (P : (0 <= iter stepm burnIn (fun s => (-(1)) * rmean N (n * c) (square (tally stepper c (z (lp y)) n)) s + qnat n * B) y)%Qc).
        { apply (av_mono _ _ IA); [|exact YC]. intros s S. specialize (G2 s S). apply -> Qcle_minus_iff in G2.
          replace (- (1) * rmean N (n * c) (square (tally stepper c (z (lp y)) n)) s + qnat n * B)%Qc with (qnat n * B + - rmean N (n * c) (square (tally stepper c (z (lp y)) n)) s)%Qc by ring. exact G2. }
        rewrite (av_affine _ _ IA) in P by exact YC. apply Qcle_minus_iff. eapply Qcle_trans; [exact P|]. apply Qcle_refl'. ring. }
  apply Qcle_trans with (/ qnat n * / qnat n * (qnat n * B))%Qc.
  - rewrite !(Qcmult_comm (/ qnat n * / qnat n)). apply Qcmult_le_compat_r; [exact H|]. apply Qcmult_nonneg; now apply Qclt_le_weak.
  - unfold Qcdiv. apply Qcle_refl'. assert (QZ := qnat_neq0 n n0). set (Bc := B). clearbody Bc. field. exact QZ.
Qed.
End Near.
End Net.
