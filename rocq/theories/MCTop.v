From Coq Require Import Field.
From Verif Require Import Base NDArray Factor Exact Spec OrderSpec TreeSpec BaseFacts NDArrayFacts FactorFacts SpecFacts Sampling MCSpec MCFacts MCProof.

Lemma upto_scale c ws : forall i, upto (map (fun w => w * c)%Qc ws) i = (upto ws i * c)%Qc.
Proof.
  induction ws as [|w ws IH]; intros i.
  - unfold upto. cbn [map]. rewrite firstn_nil. cbn [qsum]. ring.
  - destruct i; [rewrite !upto_0; ring|]. cbn [map]. rewrite !upto_S, IH. ring.
Qed.

Lemma qsum_scale c ws : qsum (map (fun w => w * c)%Qc ws) = (qsum ws * c)%Qc.
Proof. rewrite <- upto_all, upto_scale, map_length, upto_all. reflexivity. Qed.

Lemma scale_lt c x y : (0 < c)%Qc -> ((x < y) <-> (x * c < y * c))%Qc.
Proof.
  intros C. split; [now apply Qcmult_lt_compat_r|]. intros H. apply Qcnot_le_lt. intros L.
  apply (Qclt_not_le _ _ H). apply Qcmult_le_compat_r; [exact L|now apply Qclt_le_weak].
Qed.
Lemma scale_le c x y : (0 < c)%Qc -> ((x <= y) <-> (x * c <= y * c))%Qc.
Proof.
  intros C. split; [intros; apply Qcmult_le_compat_r; [auto|now apply Qclt_le_weak]|]. intros H. apply Qcnot_lt_le. intros L.
  apply (Qcle_not_lt _ _ H). now apply Qcmult_lt_compat_r.
Qed.

Section Net.
Variable b : bn.
Hypothesis SN : sampled_net b.
Let WB := sn_bn b SN.
Let WG := sn_graph b SN.
Let EM := sn_edges b SN.
Let ON := sn_once b SN.
Let NN := sn_nonneg b SN.

Lemma node_of v : In v (bnames b) -> exists n, In n (bnodes b) /\ dn_name n = v /\ get_node b v = Ok n /\ values_of b v = dn_values n /\
  dn_values n <> [] /\ NoDup (dn_values n).
Proof.
  intros Hv. apply in_map_iff in Hv as (n & E & Hn). exists n. subst v. split; [exact Hn|]. split; [reflexivity|].
  split; [now apply get_node_ok|]. split; [now apply values_of_node|]. apply (wn_values _ _ (wb_nodes _ WB _ Hn)).
Qed.

(** Weights of the Gibbs update. *)
Lemma gibbs_weights n st cs : In n (bnodes b) -> complete b st -> Permutation cs (kids b (dn_name n)) ->
  mapM (fun x => get_markov_prob n x cs (dset (dn_name n) x st) false) (dn_values n) =
  Ok (map (fun x => blanket b n (dset (dn_name n) x st)) (dn_values n)).
Proof.
  intros Hn C P. apply mapM_total. intros x Hx. apply markov_blanket; auto.
  - apply complete_dset; auto. now rewrite (values_of_node b WB n Hn).
  - apply look_dset.
Qed.

Lemma blanket_weights_nonneg n st : In n (bnodes b) ->
  Forall (fun w => 0 <= w)%Qc (map (fun x => blanket b n (dset (dn_name n) x st)) (dn_values n)).
Proof. intros Hn. apply Forall_forall. intros w Hw. apply in_map_iff in Hw as (x & <- & _). now apply blanket_nonneg. Qed.

Lemma column_blanket n st : In n (bnodes b) -> column b (dn_name n) st =
  map (fun w => w * outside b (dn_name n) st)%Qc (map (fun x => blanket b n (dset (dn_name n) x st)) (dn_values n)).
Proof.
  intros Hn. unfold column. rewrite (values_of_node b WB n Hn), map_map. apply map_ext. intros x.
  rewrite (joint_split b WB n _ Hn), outside_same. reflexivity.
Qed.

Lemma gibbs_total g st k v : rng_ok g -> complete b st -> In v (bnames b) ->
  exists x, In x (values_of b v) /\ gibbs_one g b (st, k) v = Ok (dset v x st, S k).
Proof.
  intros R C Hv. destruct (node_of v Hv) as (n & Hn & E & GN & V & NE & ND). subst v.
  destruct (children_ok b WB WG EM ON (dn_name n) Hv) as (cs & GC & P).
  destruct (sv_total g k n st cs false _ (gibbs_weights n st cs Hn C P) (blanket_weights_nonneg n st Hn) (proj1 (R k)) (proj2 (R k)) NE) as (x & Hx & Ex).
  exists x. rewrite V. split; [exact Hx|]. unfold gibbs_one. cbn [fst snd]. rewrite GN. cbn [rbind]. rewrite GC. cbn [rbind].
  rewrite Ex. reflexivity.
Qed.

Lemma gibbs_rule g st k v i : complete b st -> In v (bnames b) -> (0 < unif g k)%Qc -> (unif g k < 1)%Qc ->
  (0 < qsum (column b v st))%Qc -> i < length (values_of b v) ->
  (gibbs_one g b (st, k) v = Ok (dset v (nth i (values_of b v) "") st, S k) <->
   (upto (column b v st) i < unif g k * qsum (column b v st))%Qc /\
   (unif g k * qsum (column b v st) <= upto (column b v st) (S i))%Qc).
Proof.
  intros C Hv U0 U1 Q I. destruct (node_of v Hv) as (n & Hn & E & GN & V & NE & ND). subst v.
  destruct (children_ok b WB WG EM ON (dn_name n) Hv) as (cs & GC & P).
  set (ws := map (fun x => blanket b n (dset (dn_name n) x st)) (dn_values n)).
  rewrite (column_blanket n st Hn) in Q |- *. fold ws in Q |- *. set (c := outside b (dn_name n) st) in *.
  rewrite qsum_scale in Q |- *. rewrite !upto_scale.
  assert (C0 : (0 < c)%Qc).
  { apply Qc_nonneg_neq0_pos; [now apply outside_nonneg|]. intros X. rewrite X in Q. replace (qsum ws * 0)%Qc with 0%Qc in Q by ring.
    now apply Qc_lt_irrefl in Q. }
  assert (W0 : (0 < qsum ws)%Qc).
  { apply (scale_lt c _ _ C0). replace (0 * c)%Qc with 0%Qc by ring. exact Q. }
  replace (unif g k * (qsum ws * c))%Qc with (unif g k * qsum ws * c)%Qc by ring.
  rewrite <- (scale_lt c _ _ C0), <- (scale_le c _ _ C0). rewrite V in I |- *.
  rewrite <- (sv_iff g k n st cs false ws (gibbs_weights n st cs Hn C P) (blanket_weights_nonneg n st Hn) U1 i ND U0 W0 I).
  unfold gibbs_one. cbn [fst snd]. rewrite GN. cbn [rbind]. rewrite GC. cbn [rbind]. split.
  - destruct (sample_value g k n st cs false) as [[x k']|] eqn:S; cbn [rbind]; [|discriminate]. intros H.
    assert (H1 : dset (dn_name n) x st = dset (dn_name n) (nth i (dn_values n) "") st) by congruence.
    assert (H2 : k' = Datatypes.S k) by congruence.
    apply (f_equal (fun d => look d (dn_name n))) in H1. rewrite !look_dset in H1. now subst.
  - intros ->. reflexivity.
Qed.

(** Metropolis-Hastings. *)
Definition proposes (g : rng) (k : nat) (vals : list string) (y : string) : Prop :=
  vals <> [] /\ nth (Nat.modulo (choose g k) (length vals)) vals (hd "" vals) = y.

Lemma choice_proposes g k vals y : proposes g k vals y -> choice g k vals = Ok (y, S k).
Proof. intros [N <-]. destruct vals; [contradiction|reflexivity]. Qed.

Lemma choice_ok {A} g k (l : list A) : l <> [] -> exists x, In x l /\ choice g k l = Ok (x, S k).
Proof.
  intros N. destruct l as [|x l]; [contradiction|]. eexists. split; [|reflexivity]. apply nth_In.
  apply Nat.mod_upper_bound. discriminate.
Qed.

Lemma mh_run g st k v y x n : complete b st -> In n (bnodes b) -> dn_name n = v -> dget v st = Some x ->
  In y (values_of b v) -> choice g k (values_of b v) = Ok (y, S k) ->
  mh_one g b (st, k) v =
    Ok (if qleb (unif g (S k)) (accept_prob (blanket b n (dset v y st)) (blanket b n st)) then dset v y st else st, S (S k)).
Proof.
  intros C Hn E X Hy CH. subst v.
  assert (Hv : In (dn_name n) (bnames b)) by exact (in_map dn_name _ _ Hn).
  destruct (children_ok b WB WG EM ON (dn_name n) Hv) as (cs & GC & P).
  unfold mh_one. cbn [fst snd]. unfold dget_err. rewrite X. cbn [rbind]. rewrite (get_node_ok b WB n Hn). cbn [rbind].
  rewrite (values_of_node b WB n Hn) in CH. rewrite CH. cbn [rbind]. rewrite GC. cbn [rbind].
  rewrite (markov_blanket b WB n _ cs y); auto using complete_dset, look_dset. cbn [rbind].
  rewrite (markov_blanket b WB n st cs x); auto using look_dget.
Qed.

Lemma accept_range p q : (0 <= p)%Qc -> (0 <= q)%Qc -> (0 <= accept_prob p q)%Qc /\ (accept_prob p q <= 1)%Qc.
Proof.
  intros P Q. unfold accept_prob. destruct (qeqb q 0%Qc) eqn:E; [split; discriminate|].
  apply qeqb_false in E. destruct (qltb (p / q)%Qc 1%Qc) eqn:L; [|split; discriminate].
  split; [apply Qcdiv_nonneg; [exact P|now apply Qc_nonneg_neq0_pos]|]. apply qltb_true in L. now apply Qclt_le_weak.
Qed.

Lemma accept_balance p q : (0 <= p)%Qc -> (0 <= q)%Qc -> (q * accept_prob p q = p * accept_prob q p)%Qc.
Proof.
  intros P Q. unfold accept_prob.
  destruct (qeqb q 0%Qc) eqn:E1; destruct (qeqb p 0%Qc) eqn:E2; rewrite ?qeqb_true, ?qeqb_false in *.
  - now subst.
  - subst q. destruct (qltb (0 / p)%Qc 1%Qc) eqn:L.
    + unfold Qcdiv. ring.
    + apply qltb_false in L. exfalso. unfold Qcdiv in L. replace (0 * / p)%Qc with 0%Qc in L by ring. now apply L.
  - subst p. destruct (qltb (0 / q)%Qc 1%Qc) eqn:L.
    + unfold Qcdiv. ring.
    + apply qltb_false in L. exfalso. unfold Qcdiv in L. replace (0 * / q)%Qc with 0%Qc in L by ring. now apply L.
  - assert (P0 : (0 < p)%Qc) by now apply Qc_nonneg_neq0_pos.
    assert (Q0 : (0 < q)%Qc) by now apply Qc_nonneg_neq0_pos.
    assert (X1 : (p = p / q * q)%Qc) by (field; exact E1).
    assert (X2 : (q = q / p * p)%Qc) by (field; exact E2).
    destruct (qltb (p / q)%Qc 1%Qc) eqn:L1; destruct (qltb (q / p)%Qc 1%Qc) eqn:L2;
      rewrite ?qltb_true, ?qltb_false in *.
    + exfalso. apply (scale_lt q _ _ Q0) in L1. apply (scale_lt p _ _ P0) in L2. rewrite <- X1 in L1. rewrite <- X2 in L2.
      replace (1 * q)%Qc with q in L1 by ring. replace (1 * p)%Qc with p in L2 by ring.
      apply (Qc_lt_irrefl p). eapply Qclt_trans; eauto.
    + rewrite (Qcmult_comm q), <- X1. ring.
    + rewrite (Qcmult_comm p (q / p)), <- X2. ring.
    + apply (scale_le q _ _ Q0) in L1. apply (scale_le p _ _ P0) in L2. rewrite <- X1 in L1. rewrite <- X2 in L2.
      replace (1 * q)%Qc with q in L1 by ring. replace (1 * p)%Qc with p in L2 by ring.
      assert (p = q) by (now apply Qcle_antisym). subst. reflexivity.
Qed.

Lemma blanket_ext n s s' : (forall v, look s v = look s' v) -> blanket b n s = blanket b n s'.
Proof.
  intros H. unfold blanket. f_equal; [apply entry_ext; intros; apply H|]. f_equal. apply map_ext. intros m.
  apply entry_ext. intros; apply H.
Qed.

Lemma look_dset_back st v x y : dget v st = Some x -> forall u, look (dset v x (dset v y st)) u = look st u.
Proof.
  intros X u. destruct (string_dec u v) as [->|N].
  - rewrite look_dset. symmetry. now apply look_dget.
  - now rewrite !look_dset_neq.
Qed.

Lemma mh_balance st v x y : complete b st -> In v (bnames b) -> dget v st = Some x -> In y (values_of b v) ->
  exists a a', (0 <= a <= 1)%Qc /\ (0 <= a' <= 1)%Qc /\ (joint b st * a = joint b (dset v y st) * a')%Qc /\
    (forall g k, proposes g k (values_of b v) y -> mh_one g b (st, k) v =
       Ok (if qleb (unif g (S k)) a then dset v y st else st, S (S k))) /\
    (forall g k, proposes g k (values_of b v) x -> mh_one g b (dset v y st, k) v =
       Ok (if qleb (unif g (S k)) a' then dset v x (dset v y st) else dset v y st, S (S k))).
Proof.
  intros C Hv X Hy. destruct (node_of v Hv) as (n & Hn & E & GN & V & NE & ND).
  exists (accept_prob (blanket b n (dset v y st)) (blanket b n st)), (accept_prob (blanket b n st) (blanket b n (dset v y st))).
  assert (P1 := blanket_nonneg b n st NN Hn). assert (P2 := blanket_nonneg b n (dset v y st) NN Hn).
  split; [now apply accept_range|]. split; [now apply accept_range|]. split.
  { rewrite !(joint_split b WB n _ Hn). rewrite E, outside_same.
    transitivity (blanket b n st * accept_prob (blanket b n (dset v y st)) (blanket b n st) * outside b v st)%Qc; [ring|].
    rewrite accept_balance by assumption. ring. }
  split.
  - intros g k Pr. apply mh_run with (x := x); auto. now apply choice_proposes.
  - intros g k Pr.
    assert (Hx : In x (values_of b v)). { destruct (C v Hv) as (x' & A & B). congruence. }
    etransitivity; [apply (mh_run g (dset v y st) k v x y n); auto using complete_dset, dget_dset_eq, choice_proposes|].
    rewrite (blanket_ext n (dset v x (dset v y st)) st) by (now apply look_dset_back). reflexivity.
Qed.

Lemma accept_rule u p q : (0 <= u)%Qc -> (u <= 1)%Qc -> (0 <= p)%Qc -> (0 <= q)%Qc ->
  qleb u (accept_prob p q) = qleb (u * q)%Qc p.
Proof.
  intros U0 U1 P Q. apply eq_true_iff_eq. rewrite !qleb_true. unfold accept_prob. destruct (qeqb q 0%Qc) eqn:E.
  - apply qeqb_true in E. subst q. replace (u * 0)%Qc with 0%Qc by ring. tauto.
  - apply qeqb_false in E. assert (Q0 : (0 < q)%Qc) by now apply Qc_nonneg_neq0_pos.
    assert (X : (p = p / q * q)%Qc) by (field; exact E). destruct (qltb (p / q)%Qc 1%Qc) eqn:L.
    + rewrite (scale_le q u) by exact Q0. rewrite <- X. tauto.
    + apply qltb_false in L. split; [intros _|intros _; exact U1].
      apply Qcle_trans with (1 * q)%Qc; [apply Qcmult_le_compat_r; assumption|]. rewrite X.
      apply Qcmult_le_compat_r; [exact L|now apply Qclt_le_weak].
Qed.

(** The rule in terms of joint probabilities. *)
Lemma mh_rule g st k v y : complete b st -> In v (bnames b) -> In y (values_of b v) -> outside b v st <> 0%Qc -> rng_ok g ->
  proposes g k (values_of b v) y -> mh_one g b (st, k) v =
    Ok (if qleb (unif g (S k) * joint b st)%Qc (joint b (dset v y st)) then dset v y st else st, S (S k)).
Proof.
  intros C Hv Hy O RG Pr. destruct (node_of v Hv) as (n & Hn & E & GN & V & NE & ND). destruct (C v Hv) as (x & X & IX).
  rewrite (mh_run g st k v y x n) by (auto; now apply choice_proposes). destruct (RG (S k)) as [U0 U1].
  rewrite accept_rule; auto using (blanket_nonneg b n st NN Hn), (blanket_nonneg b n (dset v y st) NN Hn), Qclt_le_weak.
  rewrite !(joint_split b WB n _ Hn), E, outside_same.
  assert (O0 : (0 < outside b v st)%Qc).
  { apply Qc_nonneg_neq0_pos; [|exact O]. apply qprod_nonneg, Forall_forall. intros q Hq. apply in_map_iff in Hq as (m & <- & Hm).
    apply (entry_nonneg b); [exact NN|]. unfold others_of in Hm. apply filter_In in Hm. tauto. }
  replace (qleb (unif g (S k) * (blanket b n st * outside b v st))%Qc (blanket b n (dset v y st) * outside b v st)%Qc)
    with (qleb (unif g (S k) * blanket b n st)%Qc (blanket b n (dset v y st))); [reflexivity|].
  apply eq_true_iff_eq. rewrite !qleb_true. rewrite (scale_le (outside b v st)) by exact O0.
  rewrite Qcmult_assoc. tauto.
Qed.

Lemma mh_total g st k v : complete b st -> In v (bnames b) ->
  exists x, In x (values_of b v) /\ (mh_one g b (st, k) v = Ok (dset v x st, S (S k)) \/ mh_one g b (st, k) v = Ok (st, S (S k))).
Proof.
  intros C Hv. destruct (node_of v Hv) as (n & Hn & E & GN & V & NE & ND).
  destruct (C v Hv) as (x & X & IX). destruct (choice_ok g k (values_of b v)) as (y & Hy & CH); [now rewrite V|].
  exists y. split; [exact Hy|]. rewrite (mh_run g st k v y x n); auto. destruct (qleb _ _); auto.
Qed.

(** Zero-probability states are not entered when the draw is not exactly 0. *)
Lemma joint_nonneg st : (0 <= joint b st)%Qc.
Proof.
  apply qprod_nonneg, Forall_forall. intros q Hq. apply in_map_iff in Hq as (m & <- & Hm). now apply (entry_nonneg b).
Qed.

Lemma mh_positive g st k v st' k' : complete b st -> In v (bnames b) -> (0 < joint b st)%Qc ->
  (0 < unif g (S k))%Qc -> mh_one g b (st, k) v = Ok (st', k') -> (0 < joint b st')%Qc.
Proof.
  intros C Hv J U H. destruct (node_of v Hv) as (n & Hn & E & GN & V & NE & ND).
  destruct (C v Hv) as (x & X & IX). destruct (choice_ok g k (values_of b v)) as (y & Hy & CH); [now rewrite V|].
  rewrite (mh_run g st k v y x n) in H; auto.
  destruct (qleb (unif g (S k)) (accept_prob (blanket b n (dset v y st)) (blanket b n st))) eqn:A; [|now inversion H; subst].
  assert (st' = dset v y st) by congruence. subst st'.
  apply qleb_true in A. rewrite (joint_split b WB n st Hn) in J. rewrite (joint_split b WB n _ Hn). rewrite E in *. rewrite outside_same.
  assert (O0 : outside b v st <> 0%Qc) by (intros Z; rewrite Z in J; replace (blanket b n st * 0)%Qc with 0%Qc in J by ring; now apply Qc_lt_irrefl in J).
  assert (B0 : blanket b n st <> 0%Qc) by (intros Z; rewrite Z in J; replace (0 * outside b v st)%Qc with 0%Qc in J by ring; now apply Qc_lt_irrefl in J).
  apply Qcmult_pos; [|apply Qc_nonneg_neq0_pos; [now apply outside_nonneg|exact O0]].
  apply Qc_nonneg_neq0_pos; [now apply blanket_nonneg|]. intros Z. rewrite Z in A. unfold accept_prob in A.
  rewrite (proj2 (qeqb_false _ _) B0) in A. unfold Qcdiv in A. replace (0 * / blanket b n st)%Qc with 0%Qc in A by ring.
  rewrite (proj2 (qltb_true 0%Qc 1%Qc) eq_refl) in A. apply (Qclt_not_le _ _ U A).
Qed.

Lemma upto_lt_nth ws : forall i, i < length ws -> upto ws (S i) = (upto ws i + nth i ws 0)%Qc.
Proof.
  induction ws as [|w ws IH]; intros i H; [inversion H|]. destruct i.
  - rewrite upto_S, !upto_0. cbn [nth]. ring.
  - rewrite (upto_S w ws (S i)), (upto_S w ws i), IH by (cbn in H; lia). cbn [nth]. ring.
Qed.

Lemma In_qsum_le w ws : Forall (fun w => 0 <= w)%Qc ws -> In w ws -> (w <= qsum ws)%Qc.
Proof.
  induction 1 as [|x ws W F IH]; intros H; [inversion H|]. cbn [qsum]. destruct H as [->|H].
  - replace w with (w + 0)%Qc at 1 by ring. apply Qcplus_le_compat; [apply Qcle_refl|now apply qsum_nonneg].
  - replace w with (0 + w)%Qc at 1 by ring. apply Qcplus_le_compat; auto.
Qed.

Lemma column_nonneg v st : Forall (fun w => 0 <= w)%Qc (column b v st).
Proof. apply Forall_forall. intros w Hw. apply in_map_iff in Hw as (x & <- & _). apply joint_nonneg. Qed.

Lemma joint_ext s s' : (forall v, look s v = look s' v) -> joint b s = joint b s'.
Proof. intros H. unfold joint. f_equal. apply map_ext. intros m. apply entry_ext. auto. Qed.

Lemma look_dset_same st v x : dget v st = Some x -> forall u, look (dset v x st) u = look st u.
Proof.
  intros X u. destruct (string_dec u v) as [->|N]; [rewrite look_dset; symmetry; now apply look_dget|now apply look_dset_neq].
Qed.

Lemma column_positive v st : complete b st -> In v (bnames b) -> (0 < joint b st)%Qc -> (0 < qsum (column b v st))%Qc.
Proof.
  intros C Hv J. destruct (C v Hv) as (x & X & IX). eapply Qclt_le_trans; [exact J|].
  apply In_qsum_le; [apply column_nonneg|]. apply in_map_iff. exists x. split; [|exact IX].
  apply joint_ext. now apply look_dset_same.
Qed.

Lemma gibbs_positive g st k v st' k' : complete b st -> In v (bnames b) -> (0 < joint b st)%Qc ->
  (0 < unif g k)%Qc -> (unif g k < 1)%Qc -> gibbs_one g b (st, k) v = Ok (st', k') -> (0 < joint b st')%Qc.
Proof.
  intros C Hv J U U1 H. pose proof (column_positive v st C Hv J) as Q.
  destruct (node_of v Hv) as (n & Hn & E & GN & V & NE & ND).
  destruct (children_ok b WB WG EM ON v Hv) as (cs & GC & P). subst v.
  assert (H' := H). unfold gibbs_one in H'. cbn [fst snd] in H'. rewrite GN in H'. cbn [rbind] in H'. rewrite GC in H'. cbn [rbind] in H'.
  set (ws := map (fun x => blanket b n (dset (dn_name n) x st)) (dn_values n)).
  assert (W0 : (0 < qsum ws)%Qc).
  { rewrite (column_blanket n st Hn) in Q. fold ws in Q. rewrite qsum_scale in Q.
    apply Qc_nonneg_neq0_pos; [now apply qsum_nonneg, blanket_weights_nonneg|]. intros Z. rewrite Z in Q.
    replace (0 * outside b (dn_name n) st)%Qc with 0%Qc in Q by ring. now apply Qc_lt_irrefl in Q. }
  destruct (sv_hit g k n st cs false ws (gibbs_weights n st cs Hn C P) U1 U W0) as (i & I & Ei & _ & _).
  rewrite Ei in H'. cbn [rbind] in H'.
  assert (E1 : st' = dset (dn_name n) (nth i (dn_values n) "") st) by congruence.
  assert (E2 : k' = S k) by congruence. subst st' k'. rewrite <- V in H, I |- *.
  apply (gibbs_rule g st k (dn_name n) i C Hv U U1 Q I) in H. destruct H as [A B].
  rewrite upto_lt_nth in B by (unfold column; now rewrite map_length).
  apply Qc_nonneg_neq0_pos; [apply joint_nonneg|]. intros Z.
  assert (Z' : nth i (column b (dn_name n) st) 0%Qc = 0%Qc).
  { unfold column. rewrite (nth_indep _ 0%Qc (joint b (dset (dn_name n) "" st))) by (now rewrite map_length).
    rewrite (map_nth (fun x => joint b (dset (dn_name n) x st))). exact Z. }
  rewrite Z' in B. replace (upto (column b (dn_name n) st) i + 0)%Qc with (upto (column b (dn_name n) st) i) in B by ring.
  apply (Qclt_not_le _ _ A B).
Qed.
End Net.
