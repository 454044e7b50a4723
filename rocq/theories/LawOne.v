(** One update of one variable leaves the posterior invariant: Gibbs sampling and
    Metropolis-Hastings. *)
From Coq Require Import Field.
From Verif Require Import Base NDArray Factor Exact Spec OrderSpec BaseFacts FactorProofs SpecFacts Sampling MCSpec MCFacts MCProof MCTop MCChain
  LawSpec LawCount LawKernel.

Lemma qleb_div u w p : (0 < w)%Qc -> qleb (u * w)%Qc p = qleb u (p / w)%Qc.
Proof.
  intros W. apply eq_true_iff_eq. rewrite !qleb_true. assert (W' : w <> 0%Qc) by (intros ->; now apply Qc_lt_irrefl in W).
  rewrite (scale_le w u (p / w)%Qc W). unfold Qcdiv. now rewrite <- Qcmult_assoc, (Qcmult_comm (/ w)), Qcmult_inv_r, Qcmult_1_r.
Qed.

Lemma gen_ok N m l : In l (streams N m) -> rng_ok (gen l).
Proof.
  intros H k. cbn [gen unif]. apply streams_draws in H. destruct (Nat.lt_ge_cases k (length l)) as [L|L].
  - rewrite Forall_forall in H. specialize (H _ (nth_In l (half, 0) L)). destruct (nth k l (half, 0)) as [u c]. cbn [fst].
    unfold draws in H. apply in_prod_iff in H as [H _]. apply grid_in in H as [A B]. split; [now apply Qclt_le_weak|exact B].
  - rewrite nth_overflow by lia. cbn [fst]. split; [discriminate|reflexivity].
Qed.

Section Net.
Variable b : bn.
Hypothesis SN : sampled_net b.
Variable ev : dict string.
Variable N : nat.
Hypothesis N0 : 0 < N.
Let WB := sn_bn b SN.
Notation NN := (qnat N * qnat N)%Qc.

Definition one (t : transition) (v : string) : prog := fun x l =>
  match change_one t (gen l) b (x, 0) v with Ok (s, _) => Ok s | Err e => Err e end.

Lemma streams_1 F : qsum (map F (streams N 1)) = qsum (map (fun u => qsum (map (fun c => F [(u, c)]) (seq 0 N))) (grid N)).
Proof.
  rewrite streams_S. unfold draws. rewrite qsum_prod. apply qsum_map_ext. intros u _. apply qsum_map_ext. intros c _.
  cbn [streams map qsum]. ring.
Qed.

Notation upcol v x := (upto (column b v x)).
Notation tot v x := (qsum (column b v x)).

Lemma column_length v x : length (column b v x) = length (values_of b v).
Proof. unfold column. apply map_length. Qed.

Lemma gibbs_value v x u c h : In v (bnames b) -> complete b x -> (0 < tot v x)%Qc -> In u (grid N) ->
  val h (one Gibbs v x [(u, c)]) =
  bigsum (length (values_of b v)) (fun i =>
    ((ind (qleb (u * tot v x)%Qc (upcol v x (S i))) - ind (qleb (u * tot v x)%Qc (upcol v x i))) * h (dset v (nth i (values_of b v) "") x))%Qc).
Proof.
  intros Hv C W U. apply grid_in in U as [U0 U1]. set (g := gen [(u, c)]).
  assert (G : rng_ok g).
  { intros [|k]; [split; [now apply Qclt_le_weak|exact U1]|]. unfold g, gen. cbn [unif nth]. destruct k; split; (discriminate || reflexivity). }
  destruct (gibbs_total b SN g x 0 v G C Hv) as (y & Y & E). destruct (In_nth _ _ "" Y) as (i & I & EI). subst y.
  unfold one, change_one. fold g. rewrite E. cbn [val].
  apply (gibbs_rule b SN g x 0 v i C Hv) in E as [A B]; [|exact U0|exact U1|exact W|exact I]. change (unif g 0) with u in A, B.
  rewrite (bigsum_single _ _ i I).
  - rewrite (proj2 (qleb_true _ _) B). replace (qleb (u * tot v x)%Qc (upcol v x i)) with false.
    + cbn [ind]. ring.
    + symmetry. apply not_true_iff_false. rewrite qleb_true. intros L. exact (Qclt_not_le _ _ A L).
  - intros j J NJ. pose proof (column_nonneg b SN v x) as NNg.
    assert (H : qleb (u * tot v x)%Qc (upcol v x (S j)) = qleb (u * tot v x)%Qc (upcol v x j)).
    { apply eq_true_iff_eq. rewrite !qleb_true. destruct (Nat.lt_ge_cases i j) as [L|L].
      - split; intros _; (eapply Qcle_trans; [exact B|]); apply upto_mono; auto with arith.
      - split; intros H; exfalso.
        + apply (Qclt_not_le _ _ A). eapply Qcle_trans; [exact H|]. apply upto_mono; [exact NNg|lia].
        + apply (Qclt_not_le _ _ A). eapply Qcle_trans; [exact H|]. apply upto_mono; [exact NNg|lia]. }
    rewrite H. ring.
Qed.

Definition gibbs_fine : Prop := forall v x i, In v (free_vars b ev) -> In x (worlds b ev) -> i <= length (values_of b v) ->
  fine N (upcol v x i / tot v x).

Lemma upcol_le v x i : (upcol v x i <= tot v x)%Qc.
Proof.
  unfold upto. rewrite <- (firstn_skipn i (column b v x)) at 2. rewrite qsum_app.
  replace (qsum (firstn i (column b v x))) with (qsum (firstn i (column b v x)) + 0)%Qc at 1 by ring.
  apply Qcplus_le_compat; [apply Qcle_refl|]. apply qsum_nonneg. pose proof (column_nonneg b SN v x) as F.
  rewrite <- (firstn_skipn i (column b v x)) in F. now apply Forall_app in F.
Qed.

Lemma div_le_1 a w : (0 < w)%Qc -> (a <= w)%Qc -> (a / w <= 1)%Qc.
Proof.
  intros W A. apply (scale_le w _ _ W). unfold Qcdiv. rewrite <- Qcmult_assoc, (Qcmult_comm (/ w)), Qcmult_inv_r.
  - now rewrite Qcmult_1_r, Qcmult_1_l.
  - intros ->. now apply Qc_lt_irrefl in W.
Qed.

Lemma gibbs_sum v x h : gibbs_fine -> In v (free_vars b ev) -> In x (worlds b ev) -> (0 < tot v x)%Qc ->
  qsum (map (fun l => val h (one Gibbs v x l)) (streams N 1)) =
  (NN * bigsum (length (values_of b v)) (fun i => joint b (dset v (nth i (values_of b v) "") x) / tot v x * h (dset v (nth i (values_of b v) "") x)))%Qc.
Proof.
  intros GF Fv X W. pose proof (worlds_complete b SN ev x X) as C. pose proof (proj1 (proj1 (free_spec b SN ev v) Fv)) as Hv.
  rewrite streams_1. set (n := length (values_of b v)).
  transitivity (qsum (map (fun u => qnat N * bigsum n (fun i =>
    ((ind (qleb (u * tot v x)%Qc (upcol v x (S i))) - ind (qleb (u * tot v x)%Qc (upcol v x i))) * h (dset v (nth i (values_of b v) "") x))%Qc))%Qc (grid N))).
  - apply qsum_map_ext. intros u U. rewrite <- (seq_length N 0) at 2. rewrite <- qsum_const. apply qsum_map_ext. intros c _.
    now apply gibbs_value.
  - rewrite qsum_mult_l, <- Qcmult_assoc. f_equal. unfold bigsum at 1. rewrite qsum_swap. rewrite <- bigsum_mult_l.
    apply bigsum_ext. intros i I.
    rewrite (qsum_map_ext _ (fun u => h (dset v (nth i (values_of b v) "") x) *
      (ind (qleb (u * tot v x)%Qc (upcol v x (S i))) + (-(1)) * ind (qleb (u * tot v x)%Qc (upcol v x i)))))%Qc by (intros; ring).
    rewrite qsum_mult_l, qsum_plus, qsum_mult_l.
    assert (CT : forall j, j <= n -> qsum (map (fun u => ind (qleb (u * tot v x)%Qc (upcol v x j))) (grid N)) = (qnat N * (upcol v x j / tot v x))%Qc).
    { intros j J. rewrite (qsum_map_ext _ (fun u => ind (qleb u (upcol v x j / tot v x)%Qc))).
      - apply grid_count; [exact N0|now apply GF|]. apply div_le_1; [exact W|apply upcol_le].
      - intros u _. now rewrite qleb_div. }
    rewrite !CT by lia. rewrite upto_lt_nth by (rewrite column_length; exact I).
    replace (nth i (column b v x) 0%Qc) with (joint b (dset v (nth i (values_of b v) "") x)).
    + unfold Qcdiv. ring.
    + unfold column. rewrite (nth_indep _ 0%Qc (joint b (dset v "" x))) by (rewrite map_length; exact I).
      symmetry. exact (map_nth (fun y => joint b (dset v y x)) _ "" i).
Qed.

(** Setting a variable twice. *)
Lemma dset_dset {A} v (x y : A) d : dset v x (dset v y d) = dset v x d.
Proof.
  induction d as [|[u z] d IH]; cbn [dset]; [now rewrite String.eqb_refl|].
  destruct (String.eqb v u) eqn:E; cbn [dset]; rewrite E; [reflexivity|now rewrite IH].
Qed.

Lemma column_dset v y x : column b v (dset v y x) = column b v x.
Proof. unfold column. apply map_ext. intros z. now rewrite dset_dset. Qed.

Lemma sum_values v (F : string -> Qc) : qsum (map F (values_of b v)) = bigsum (length (values_of b v)) (fun i => F (nth i (values_of b v) "")).
Proof. apply qsum_list_nth. Qed.

Lemma values_pos v : In v (bnames b) -> qnat (length (values_of b v)) <> 0%Qc.
Proof.
  intros Hv. destruct (node_of b SN v Hv) as (n & _ & _ & _ & V & NE & _). apply qnat_neq0. rewrite V.
  destruct (dn_values n); [contradiction|cbn; lia].
Qed.

Lemma Qcmult_cancel c x y : c <> 0%Qc -> (c * x = c * y)%Qc -> x = y.
Proof.
  intros C E. apply (f_equal (fun z => / c * z)%Qc) in E. rewrite !Qcmult_assoc, (Qcmult_comm (/ c)), Qcmult_inv_r, !Qcmult_1_l in E by exact C.
  exact E.
Qed.

Lemma joint_pos_or_zero x : joint b x = 0%Qc \/ (0 < joint b x)%Qc.
Proof.
  destruct (Qc_eq_dec (joint b x) 0%Qc) as [E|E]; [now left|right]. apply Qc_nonneg_neq0_pos; [now apply joint_nonneg|exact E].
Qed.

Lemma gibbs_invariant v : gibbs_fine -> In v (free_vars b ev) -> invariant b ev N (one Gibbs v) 1.
Proof.
  intros GF Fv h. pose proof (proj1 (proj1 (free_spec b SN ev v) Fv)) as Hv.
  set (K := fun x => (NN * bigsum (length (values_of b v)) (fun i => joint b (dset v (nth i (values_of b v) "") x) / tot v x * h (dset v (nth i (values_of b v) "") x)))%Qc).
  transitivity (qsum (map (fun x => joint b x * K x)%Qc (worlds b ev))).
  { apply qsum_map_ext. intros x X. destruct (joint_pos_or_zero x) as [Z|P]; [rewrite Z; ring|]. f_equal.
    apply gibbs_sum; auto. apply column_positive; auto. now apply (worlds_complete b SN ev). }
  apply (Qcmult_cancel (qnat (length (values_of b v)))); [now apply values_pos|].
  rewrite <- (worlds_resample b SN ev v _ Fv). cbn [powc]. rewrite Qcmult_1_r, Qcmult_assoc, (Qcmult_comm (qnat _)), <- Qcmult_assoc.
  rewrite <- (worlds_resample b SN ev v _ Fv), <- qsum_mult_l. apply qsum_map_ext. intros x X. rewrite !sum_values.
  set (n := length (values_of b v)). set (s := fun i => dset v (nth i (values_of b v) "") x).
  transitivity (bigsum n (fun j => joint b (s j) * K x)%Qc).
  { apply bigsum_ext. intros j J. f_equal. unfold K, s. f_equal. apply bigsum_ext. intros i I. now rewrite !dset_dset, column_dset. }
  rewrite bigsum_mult_r. unfold K. fold n. fold (s : nat -> dict string).
  change (fun i => joint b (dset v (nth i (values_of b v) "") x) / tot v x * h (dset v (nth i (values_of b v) "") x))%Qc
    with (fun i => joint b (s i) / tot v x * h (s i))%Qc.
  assert (T : bigsum n (fun j => joint b (s j)) = tot v x) by (unfold column; rewrite sum_values; reflexivity). rewrite T.
  destruct (Qc_eq_dec (tot v x) 0%Qc) as [Z|Z].
  - rewrite Z, Qcmult_0_l. symmetry. rewrite bigsum_zero; [ring|]. intros i I.
    enough (E : joint b (s i) = 0%Qc) by (cbv beta; fold (s i); rewrite E; ring). apply (bigsum_nonneg_zero n (fun j => joint b (s j))); [|congruence|exact I].
    intros j J. now apply joint_nonneg.
  - replace (tot v x * (NN * bigsum n (fun i => joint b (s i) / tot v x * h (s i))))%Qc
      with (NN * bigsum n (fun i => tot v x * (joint b (s i) / tot v x * h (s i))))%Qc by (rewrite bigsum_mult_l; ring).
    f_equal. apply bigsum_ext. intros i I. unfold Qcdiv.
    transitivity (tot v x * / tot v x * (joint b (s i) * h (s i)))%Qc; [ring|]. rewrite Qcmult_inv_r by exact Z. apply Qcmult_1_l.
Qed.

(** ** Metropolis-Hastings *)
Lemma streams_2 F : qsum (map F (streams N 2)) =
  qsum (map (fun u => qsum (map (fun c => qsum (map (fun u' => qsum (map (fun c' => F [(u, c); (u', c')]) (seq 0 N))) (grid N))) (seq 0 N))) (grid N)).
Proof.
  rewrite streams_S. unfold draws at 1. rewrite qsum_prod. apply qsum_map_ext. intros u _. apply qsum_map_ext. intros c _.
  now rewrite (streams_1 (fun l => F ((u, c) :: l))).
Qed.

Definition acc (n : dnode) (z y : dict string) : Qc := accept_prob (blanket b n z) (blanket b n y).

Definition mh_fine : Prop := forall n x i, In n (bnodes b) -> In (dn_name n) (free_vars b ev) -> In x (worlds b ev) -> i < length (values_of b (dn_name n)) ->
  fine N (acc n (dset (dn_name n) (nth i (values_of b (dn_name n)) "") x) x).

Definition div_fine : Prop := forall v, In v (bnames b) -> Nat.divide (length (values_of b v)) N.

Lemma mh_value n x u c u' c' h : In n (bnodes b) -> complete b x ->
  val h (one MetropolisHastings (dn_name n) x [(u, c); (u', c')]) =
  let s := dset (dn_name n) (nth (Nat.modulo c (length (values_of b (dn_name n)))) (values_of b (dn_name n)) "") x in
  (ind (qleb u' (acc n s x)) * (h s - h x) + h x)%Qc.
Proof.
  intros Hn C. set (v := dn_name n). assert (Hv : In v (bnames b)) by exact (in_map dn_name _ _ Hn).
  destruct (C v Hv) as (x0 & X & IX). assert (NE : values_of b v <> []) by (intros Z; rewrite Z in IX; destruct IX).
  set (i := Nat.modulo c (length (values_of b v))).
  assert (I : i < length (values_of b v)) by (apply Nat.mod_upper_bound; destruct (values_of b v); [contradiction|cbn; lia]).
  set (g := gen [(u, c); (u', c')]).
  assert (CH : choice g 0 (values_of b v) = Ok (nth i (values_of b v) "", 1)).
  { apply choice_proposes. split; [exact NE|]. change (choose g 0) with c. fold i. now apply nth_indep. }
  unfold one, change_one. fold g.
  rewrite (mh_run b SN g x 0 v (nth i (values_of b v) "") x0 n C Hn eq_refl X (nth_In _ _ I) CH).
  change (unif g 1) with u'. cbv zeta. unfold acc. destruct (qleb u' _); cbn [val ind]; ring.
Qed.

Lemma mh_sum n x h : mh_fine -> div_fine -> In n (bnodes b) -> In (dn_name n) (free_vars b ev) -> In x (worlds b ev) ->
  (qnat (length (values_of b (dn_name n))) * qsum (map (fun l => val h (one MetropolisHastings (dn_name n) x l)) (streams N 2)) =
  NN * NN * bigsum (length (values_of b (dn_name n))) (fun i =>
    let s := dset (dn_name n) (nth i (values_of b (dn_name n)) "") x in acc n s x * (h s - h x) + h x))%Qc.
Proof.
  intros MF DF Hn Fv X. pose proof (worlds_complete b SN ev x X) as C. set (v := dn_name n) in *.
  assert (Hv : In v (bnames b)) by exact (in_map dn_name _ _ Hn). set (len := length (values_of b v)).
  assert (L0 : 0 < len).
  { destruct (node_of b SN v Hv) as (m & _ & _ & _ & V & NE & _). unfold len. rewrite V. destruct (dn_values m); [contradiction|cbn; lia]. }
  set (s := fun i => dset v (nth i (values_of b v) "") x).
  rewrite streams_2.
  set (G := fun i => (qnat N * (qnat N * (acc n (s i) x * (h (s i) - h x) + h x)))%Qc).
  transitivity (qnat len * qsum (map (fun _ : Qc => qsum (map (fun c => G (Nat.modulo c len)) (seq 0 N))) (grid N)))%Qc.
  - f_equal. apply qsum_map_ext. intros u _. apply qsum_map_ext. intros c _. set (i := Nat.modulo c len).
    assert (I : i < len) by (apply Nat.mod_upper_bound; lia).
    transitivity (qsum (map (fun u' => qnat N * (ind (qleb u' (acc n (s i) x)) * (h (s i) - h x) + h x))%Qc (grid N))).
    + apply qsum_map_ext. intros u' _. rewrite <- (seq_length N 0) at 2. rewrite <- qsum_const. apply qsum_map_ext. intros c' _.
      exact (mh_value n x u c u' c' h Hn C).
    + rewrite qsum_mult_l. unfold G. f_equal.
      rewrite qsum_plus, qsum_const, grid_length.
      rewrite (qsum_map_ext _ (fun u' => (h (s i) - h x) * ind (qleb u' (acc n (s i) x)))%Qc) by (intros; ring).
      rewrite qsum_mult_l, grid_count; [ring|exact N0|now apply MF|].
      apply accept_range; apply blanket_nonneg; auto; apply (sn_nonneg b SN).
  - rewrite qsum_const, grid_length.
    transitivity (qnat N * (qnat len * qsum (map (fun c => G (Nat.modulo c len)) (seq 0 N))))%Qc; [ring|].
    rewrite (mod_count N len G L0 (DF v Hv)). unfold G. rewrite !bigsum_mult_l. unfold s. ring.
Qed.

Lemma antisym_zero n (T : nat -> nat -> Qc) : (forall i j, i < n -> j < n -> T i j = (- T j i)%Qc) -> bigsum n (fun i => bigsum n (fun j => T i j)) = 0%Qc.
Proof.
  intros A. set (D := bigsum n (fun i => bigsum n (fun j => T i j))).
  assert (E : (D = -(1) * D)%Qc).
  { unfold D at 2. rewrite <- bigsum_mult_l. unfold D. unfold bigsum at 1 2. rewrite qsum_swap. apply qsum_map_ext. intros j J. apply in_seq in J.
    change (bigsum n (fun i => T i j) = -(1) * bigsum n (fun k => T j k))%Qc.
    rewrite <- bigsum_mult_l. apply bigsum_ext. intros i I. rewrite (A i j) by lia. ring. }
  apply (Qcmult_cancel (1 + 1)%Qc); [discriminate|]. transitivity (D + D)%Qc; [ring|]. rewrite E at 1. ring.
Qed.

Lemma mh_invariant v : mh_fine -> div_fine -> In v (free_vars b ev) -> invariant b ev N (one MetropolisHastings v) 2.
Proof.
  intros MF DF Fv h. pose proof (proj1 (proj1 (free_spec b SN ev v) Fv)) as Hv.
  destruct (node_of b SN v Hv) as (n & Hn & E & _). subst v. set (v := dn_name n) in *.
  set (len := length (values_of b v)). assert (L0 : qnat len <> 0%Qc) by now apply values_pos.
  set (s := fun x i => dset v (nth i (values_of b v) "") x).
  apply (Qcmult_cancel (qnat len)); [exact L0|]. rewrite <- qsum_mult_l.
  transitivity (NN * NN * (qnat len * qsum (map (fun x => joint b x * h x)%Qc (worlds b ev)) +
     qsum (map (fun x => bigsum len (fun i => joint b x * acc n (s x i) x * (h (s x i) - h x)))%Qc (worlds b ev))))%Qc.
  { rewrite <- qsum_mult_l, <- qsum_plus, <- qsum_mult_l. apply qsum_map_ext. intros x X.
    rewrite Qcmult_assoc, (Qcmult_comm (qnat len)), <- Qcmult_assoc. unfold len, v. rewrite mh_sum by assumption. fold v. fold len.
    transitivity (NN * NN * bigsum len (fun i => joint b x * (acc n (s x i) x * (h (s x i) - h x) + h x)))%Qc; [rewrite bigsum_mult_l; unfold s; ring|].
    f_equal. rewrite (bigsum_ext _ _ (fun i => joint b x * h x + joint b x * acc n (s x i) x * (h (s x i) - h x)))%Qc by (intros; ring).
    rewrite bigsum_plus. f_equal. unfold bigsum. rewrite qsum_const, seq_length. reflexivity. }
  match goal with |- (_ * (_ + ?d) = _)%Qc => set (D := d) end.
  enough (Z : D = 0%Qc) by (rewrite Z; cbn [powc]; ring).
  apply (Qcmult_cancel (qnat len)); [exact L0|]. unfold D. rewrite <- (worlds_resample b SN ev v _ Fv).
  transitivity 0%Qc; [|ring]. apply qsum_zero. intros x X. rewrite sum_values.
  transitivity (bigsum len (fun j => bigsum len (fun i => joint b (s x j) * acc n (s x i) (s x j) * (h (s x i) - h (s x j)))))%Qc.
  { apply bigsum_ext. intros j J. apply bigsum_ext. intros i I. unfold s. now rewrite dset_dset. }
  apply antisym_zero. intros i j I J.
  assert (B : (joint b (s x i) * acc n (s x j) (s x i) = joint b (s x j) * acc n (s x i) (s x j))%Qc).
  { rewrite !(joint_split b WB n _ Hn). unfold s. fold v. rewrite !(outside_same b). fold (s x i). fold (s x j). unfold acc.
    transitivity (blanket b n (s x i) * accept_prob (blanket b n (s x j)) (blanket b n (s x i)) * outside b v x)%Qc; [unfold s; ring|].
    rewrite accept_balance by (apply blanket_nonneg; auto; apply (sn_nonneg b SN)). unfold s. ring. }
  rewrite B. ring.
Qed.
End Net.
