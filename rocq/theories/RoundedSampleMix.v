(** The long-run distribution of rounded chains. *)
From Coq Require Import Field.
From Verif Require Import Base NDArray Factor Exact Spec BaseFacts FactorProofs SpecFacts Sampling MCSpec MCFacts MCProof MCTop MCChain
  LawSpec LawCount LawKernel LawOne LawChain LawMean LawErgodic LawForward LawMCMC LawTop
  Rounded RoundedSpec RoundedProof RoundedTables RoundedTop RoundedDouble RoundedSample RoundedSampleSpec RoundedSampleDraw RoundedSampleOne RoundedSampleChain RoundedSampleStay.

(** ** A geometric sum in blocks *)
Section Geometric.
Variable e : Qc.
Hypothesis e0 : (0 < e)%Qc.
Hypothesis e1 : (e <= 1)%Qc.
Variable r : nat.
Hypothesis r0 : 0 < r.
Notation q := (1 - e)%Qc.
Fixpoint piled (n : nat) : Qc := match n with O => 0%Qc | S n' => (piled n' + powc q (n' / r))%Qc end.

Lemma q_nonneg : (0 <= q)%Qc.
Proof. apply -> Qcle_minus_iff. exact e1. Qed.
Lemma powq_nonneg k : (0 <= powc q k)%Qc.
Proof. rewrite <- power_powc. apply LawTop.power_nonneg, q_nonneg. Qed.

Lemma piled_block m k : k <= r -> piled (r * m + k) = (piled (r * m) + qnat k * powc q m)%Qc.
Proof.
  induction k as [|k IH]; intros K; [rewrite Nat.add_0_r; change (qnat 0) with 0%Qc; ring|]. rewrite Nat.add_succ_r. cbn [piled]. rewrite IH by lia.
  replace ((r * m + k) / r) with m by (rewrite Nat.mul_comm, Nat.div_add_l by lia; rewrite Nat.div_small; lia).
  replace (S k) with (k + 1)%nat by lia. rewrite qnat_add. change (qnat 1) with 1%Qc. ring.
Qed.

Lemma piled_blocks m : (e * piled (r * m) = qnat r * (1 - powc q m))%Qc.
Proof.
  induction m as [|m IH]; [rewrite Nat.mul_0_r; cbn [piled powc]; ring|]. rewrite Nat.mul_succ_r, piled_block, Qcmult_plus_distr_r, IH by lia. cbn [powc]. ring.
Qed.

Lemma piled_mono n m : n <= m -> (piled n <= piled m)%Qc.
Proof.
  induction 1 as [|m _ IH]; [apply Qcle_refl|]. eapply Qcle_trans; [exact IH|]. cbn [piled]. rewrite <- (Qcplus_0_r (piled m)) at 1. apply Qcplus_le_compat; [apply Qcle_refl|apply powq_nonneg].
Qed.

Lemma piled_le n : (piled n <= qnat r / e)%Qc.
Proof.
  apply Qcle_trans with (piled (r * n)); [apply piled_mono; destruct r; [lia|cbn; lia]|].
  apply (cancel_le e); [exact e0|]. rewrite piled_blocks. replace (e * (qnat r / e))%Qc with (qnat r)%Qc by (field; intros Z; rewrite Z in e0; now apply Qc_lt_irrefl in e0).
  apply Qcle_minus_iff. replace (qnat r + - (qnat r * (1 - powc q n)))%Qc with (qnat r * powc q n)%Qc by ring. apply Qcmult_nonneg; [apply qnat_nonneg|apply powq_nonneg].
Qed.
End Geometric.

(** ** Averages over rounded steps *)
Section Means.
Variable L : list (dict string).
Variable N : nat.
Hypothesis N0 : 0 < N.
Notation NN := (qnat N * qnat N)%Qc.

Definition total_on (F : prog) (c : nat) : Prop := forall x l, In x L -> In l (streams N c) -> exists s, F x l = Ok s /\ In s L.

Lemma mean_le c F G f g (w : list (Qc * nat) -> Qc) d x : (forall l, In l (streams N c) -> val f (F x l) <= val g (G x l) + w l)%Qc ->
  (qsum (map w (streams N c)) <= powc NN c * d)%Qc -> (mean N c F f x <= mean N c G g x + d)%Qc.
Proof.
  intros H D. apply (cancel_le (powc NN c)); [now apply powc_NN_pos|]. rewrite Qcmult_plus_distr_r, <- !eq_mean by exact N0.
  eapply Qcle_trans; [|apply Qcplus_le_compat; [apply Qcle_refl|exact D]]. rewrite <- qsum_plus. apply sum_le. exact H.
Qed.

Lemma mean_shift c F f g d x : total_on F c -> In x L -> (forall s, In s L -> f s <= g s + d)%Qc -> (mean N c F f x <= mean N c F g x + d)%Qc.
Proof.
  intros T X H. apply (mean_le c F F f g (fun _ => d)).
  - intros l Hl. destruct (T x l X Hl) as (s & E & S1). rewrite E. cbn [val]. now apply H.
  - rewrite qsum_const, streams_count. apply Qcle_refl.
Qed.

Lemma ind_nonneg (a : bool) : (0 <= ind a)%Qc.
Proof. destruct a; discriminate. Qed.

Lemma mean_switch c B F F' f lo w d x : coupled N B F F' c d -> total_on F c -> total_on F' c -> In x L -> (0 <= w)%Qc -> (forall s, In s L -> lo <= f s /\ f s <= lo + w)%Qc ->
  (mean N c F' f x <= mean N c F f x + w * d /\ mean N c F f x <= mean N c F' f x + w * d)%Qc.
Proof.
  intros C T T' X W0 H. destruct (C x) as [C1 C2].
  assert (D : (qsum (map (fun l => w * ind (B x l)) (streams N c)) <= powc NN c * (w * d))%Qc).
  { rewrite qsum_mult_l. replace (powc NN c * (w * d))%Qc with (w * (powc NN c * d))%Qc by ring. now apply Qcmult_le_l. }
  assert (K : forall l, In l (streams N c) -> (val f (F' x l) <= val f (F x l) + w * ind (B x l) /\ val f (F x l) <= val f (F' x l) + w * ind (B x l))%Qc).
  { intros l Hl. destruct (B x l) eqn:BX; cbn [ind].
    - destruct (T x l X Hl) as (s & E & S1). destruct (T' x l X Hl) as (s' & E' & S1'). rewrite E, E'. cbn [val]. destruct (H s S1) as [A1 A2]. destruct (H s' S1') as [A1' A2'].
      rewrite Qcmult_1_r. split; (eapply Qcle_trans; [eassumption|apply Qcplus_le_compat; [assumption|apply Qcle_refl]]).
    - rewrite (C1 l Hl BX), Qcmult_0_r, Qcplus_0_r. split; apply Qcle_refl. }
  split; apply (mean_le c _ _ f f (fun l => w * ind (B x l))%Qc); auto; intros l Hl; now apply K.
Qed.
End Means.

Section Mix.
Context {RD : Rounding}.
Variable b : bn.
Hypothesis SN : sampled_net b.
Variable ev : dict string.
Hypothesis ND : NoDup (dkeys ev).
Hypothesis IN : incl (dkeys ev) (bnames b).
Notation L := (possible b ev).
Notation vs := (free_vars b ev).
Variable N : nat.
Hypothesis N0 : 0 < N.
Hypothesis GF : gibbs_fine b ev N.
Hypothesis MF : mh_fine b ev N.
Hypothesis DF : div_fine b N.
Hypothesis VF : vs <> [] -> Nat.divide (length vs) N.
Variable t : transition.
Variable full : bool.
Hypothesis F : full = true \/ vs <> [].
Notation c := (per_step t full vs).
Notation stepm := (mean N c (stepp b t full vs)).
Notation rstepm := (mean N c (rstepp b t full vs)).
Notation delta := (qnat (updates full vs) * slip b N)%Qc.

Lemma exact_total : total_on L N (stepp b t full vs) c.
Proof. intros x l X Hl. exact (exact_live_moves b SN ev t full N l x Hl F X). Qed.
Lemma rounded_total : total_on L N (rstepp b t full vs) c.
Proof. intros x l X Hl. exact (live_moves b SN ev t full N l x Hl F X). Qed.

Lemma delta_nonneg : (0 <= delta)%Qc.
Proof. apply Qcmult_nonneg; [apply qnat_nonneg|now apply slip_nonneg]. Qed.

Variable r : nat.
Variable e : Qc.
Hypothesis MX : mixing b ev full r e.

Lemma iter_switch h k : (forall s, In s L -> 0 <= h s /\ h s <= 1)%Qc -> forall x, In x L ->
  (iter rstepm k h x <= iter stepm k h x + (1 + 1) * delta * piled e r k /\ iter stepm k h x <= iter rstepm k h x + (1 + 1) * delta * piled e r k)%Qc.
Proof.
  intros H. destruct MX as (R0 & E0 & E1 & RE). induction k as [|k IH]; intros x X; cbn [iter piled].
  - rewrite Qcmult_0_r, Qcplus_0_r. split; apply Qcle_refl.
  - set (p := powc (1 - e)%Qc (k / r)). set (f := iter stepm k h) in *. set (f' := iter rstepm k h) in *. set (E := ((1 + 1) * delta * piled e r k)%Qc) in *.
    assert (P0 : (0 <= p)%Qc) by now apply powq_nonneg.
    set (mu := (qsum (map (fun s => joint b s * h s)%Qc (worlds b ev)) / qsum (map (joint b) (worlds b ev)))%Qc).
    assert (NR : forall s, In s L -> (mu - p <= f s /\ f s <= (mu - p) + (p + p))%Qc).
    { intros s S1. destruct (steps_near b SN ev N N0 GF MF DF VF t full r e k h s F R0 (Qclt_le_weak _ _ E0)) as [A B]; auto.
      fold mu p f in A, B. split; [exact A|]. replace (mu - p + (p + p))%Qc with (mu + p)%Qc by ring. exact B. }
    destruct (mean_switch L N N0 c _ _ _ f (mu - p)%Qc (p + p)%Qc _ x (step_coupled b (sn_nonneg b SN) N N0 t full vs) exact_total rounded_total X) as [A B]; auto.
    { rewrite <- (Qcplus_0_r 0%Qc). now apply Qcplus_le_compat. }
    replace ((1 + 1) * delta * (piled e r k + p))%Qc with ((p + p) * delta + E)%Qc by (unfold E; ring). rewrite !Qcplus_assoc. split.
    + eapply Qcle_trans; [apply (mean_shift L N N0 c _ f' f E x rounded_total X); intros s S1; now apply IH|]. apply Qcplus_le_compat; [exact A|apply Qcle_refl].
    + eapply Qcle_trans; [exact B|]. rewrite <- Qcplus_assoc, (Qcplus_comm _ E), Qcplus_assoc. apply Qcplus_le_compat; [|apply Qcle_refl].
      apply (mean_shift L N N0 c _ f f' E x rounded_total X); intros s S1; now apply IH.
Qed.

Definition drift : Qc := ((1 + 1) * delta * (qnat r / e))%Qc.

Lemma drift_bound k : ((1 + 1) * delta * piled e r k <= drift)%Qc.
Proof.
  destruct MX as (R0 & E0 & E1 & _). apply Qcmult_le_l; [|now apply piled_le]. apply Qcmult_nonneg; [discriminate|apply delta_nonneg].
Qed.

(** Distance from the posterior after [k] rounded steps. *)
Lemma rvalue_near k q x : In x L -> let p := (LawSpec.power (1 - e) (k / r) + drift)%Qc in
  (posterior b (hard ev) q - p <= iter rstepm k (fun s => ind (agrees q s)) x)%Qc /\
  (iter rstepm k (fun s => ind (agrees q s)) x <= posterior b (hard ev) q + p)%Qc.
Proof.
  intros X p. set (p0 := LawSpec.power (1 - e)%Qc (k / r)) in *. destruct (value_near b SN ev ND IN N N0 GF MF DF VF t full F r e MX k q x X) as [A B].
  destruct (iter_switch (fun s => ind (agrees q s)) k) with (x := x) as [C D]; [intros s _; destruct (agrees q s); split; discriminate|exact X|].
  pose proof (drift_bound k) as DB. fold p0 in A, B. split.
  - unfold p. replace (posterior b (hard ev) q - (p0 + drift))%Qc with (posterior b (hard ev) q - p0 - drift)%Qc by ring. 
    apply Qcle_minus_iff. rewrite <- Qcle_minus_iff. eapply Qcle_trans; [apply Qcplus_le_compat; [exact A|apply Qcle_refl]|].
    apply Qcle_minus_iff. replace (iter rstepm k (fun s => ind (agrees q s)) x + - (iter stepm k (fun s => ind (agrees q s)) x + - drift))%Qc with ((iter rstepm k (fun s => ind (agrees q s)) x + drift) + - iter stepm k (fun s => ind (agrees q s)) x)%Qc by ring.
    rewrite <- Qcle_minus_iff. eapply Qcle_trans; [exact D|]. apply Qcplus_le_compat; [apply Qcle_refl|exact DB].
  - unfold p. rewrite Qcplus_assoc. eapply Qcle_trans; [exact C|]. now apply Qcplus_le_compat.
Qed.
End Mix.
