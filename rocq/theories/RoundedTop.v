(** Consequences: absolute errors, agreement of the algorithms, draws. *)
From Verif Require Import Base BaseFacts NDArray NDArrayFacts SumCalc Factor FactorFacts FactorProofs Exact Order OrderSpec OrderProof Spec SpecFacts VEProof VEProof2 Sampling MCSpec MCProof Rounded RoundedSpec RoundedProof.
From Verif Require LawCount.

Section Top.
Context {RD : Rounding} {AD : Adding} {SO : SetOrder}.
Variable b : bn.
Hypothesis WB : wf_bn b.
Hypothesis NN : nonneg_bn b.

Lemma sumn_perm l l' : Permutation l l' -> sumn l = sumn l'.
Proof. unfold sumn. induction 1; cbn; lia. Qed.

Lemma naive_top Q ev : ev_ok b ev -> NoDup Q -> incl Q (bnames b) ->
  exists r, rounded_naive b Q ev = Ok r /\ reports b r Q (potential_at r) /\
    forall q, is_inst b Q q -> close (naive_errors b Q ev) (posterior b ev q) (potential_at r q).
Proof.
  intros EV ND I. destruct (naive_rounded b WB NN ev EV Q ND I) as (r & E & R & C). exists r. split; [exact E|]. split; [exact R|]. intros q Hq.
  eapply close_mono; [|exact (C q Hq)]. unfold naive_errors, summed.
  assert (L : length (filter (fun v => dmem v ev) (bnames b)) <= length ev).
  { rewrite <- (map_length fst ev). apply NoDup_incl_length; [apply NoDup_filter, WB|]. intros v Hv. apply filter_In in Hv as [_ Hv]. apply dmem_In in Hv. exact Hv. }
  lia.
Qed.

Lemma bucket_top Q ev o : ev_ok b ev -> incl (dkeys ev) (bnames b) -> NoDup Q -> incl Q (bnames b) -> (o = None \/ o = Some [] -> wf_graph b) ->
  (forall l, o = Some l -> l <> [] -> Permutation (bnames b) l) ->
  exists r, rounded_bucket b Q ev o = Ok r /\ reports b r Q (potential_at r) /\
    forall q, is_inst b Q q -> close (bucket_errors b Q ev) (posterior b ev q) (potential_at r q).
Proof.
  intros EV K ND I G P. destruct (bucket_any_order b WB Q ev o NN EV K ND I G P) as (r & E & R). unfold rounded_bucket, bucket_by. unfold bucket_query in E.
  assert (H : exists l, order_or_default b o = Ok l /\ Permutation (bnames b) l).
  { unfold order_or_default. destruct o as [[|x l]|].
    - destruct (min_degree_greedy b) as (l & El & Pr & _); [apply G; tauto|eauto].
    - exists (x :: l). split; [reflexivity|]. apply P; [reflexivity|discriminate].
    - destruct (min_degree_greedy b) as (l & El & Pr & _); [apply G; tauto|eauto]. }
  destruct H as (o1 & EO & PO). rewrite EO in *. cbn [rbind] in *. unfold bucket_marginals in E.
  assert (NO : NoDup o1) by (apply (Permutation_NoDup PO), WB).
  assert (M := move_to_end_spec Q o1 ND NO (fun v H => Permutation_in _ PO (I v H))). rewrite M in *. cbn [snd] in E.
  destruct (bucket_rounded b WB NN ev EV Q o1 _ (filter (fun v => negb (mem v Q)) o1) ND I M (Permutation_sym PO) (NoDup_filter _ NO) eq_refl) as (r' & E' & R' & C); [eauto|].
  exists r'. split; [exact E'|]. split; [exact R'|]. intros q Hq. specialize (C q Hq).
  assert (S : sumn (sizes b (filter (fun v => negb (mem v Q)) o1)) = sumn (sizes b (summed b Q))).
  { apply sumn_perm, Permutation_map. apply NoDup_Permutation; [apply NoDup_filter, NO|apply NoDup_filter, WB|]. intros v. unfold summed. rewrite !filter_In.
    split; intros [H1 H2]; (split; [|exact H2]); [apply (Permutation_in _ (Permutation_sym PO)), H1|apply (Permutation_in _ PO), H1]. }
  rewrite S in C. exact C.
Qed.

Lemma posterior_nonneg ev q : ev_ok b ev -> (0 <= posterior b ev q)%Qc.
Proof.
  intros E. unfold posterior. destruct (qeqb _ _) eqn:Z; [apply Qcle_refl|]. apply Qcdiv_nonneg; [apply mass_nonneg; assumption|].
  apply Qc_nonneg_neq0_pos; [apply mass_nonneg; assumption|apply qeqb_false, Z].
Qed.

Lemma posterior_le_1 ev q : ev_ok b ev -> (posterior b ev q <= 1)%Qc.
Proof.
  intros EV. unfold posterior. destruct (qeqb _ _) eqn:Z; [discriminate|].
  assert (P : (0 < mass b ev [])%Qc) by (apply Qc_nonneg_neq0_pos; [apply mass_nonneg; assumption|apply qeqb_false, Z]).
  rewrite <- (Qcmult_inv_r (mass b ev [])) by apply Qc_pos_neq0, P. unfold Qcdiv. apply Qcmult_le_compat_r; [|apply Qclt_le_weak, Qcinv_pos, P].
  assert (W : forall s, (0 <= weight b ev s)%Qc).
  { intros s. unfold weight, joint. apply Qcmult_nonneg; apply qprod_nonneg; apply Forall_forall; intros x Hx; apply in_map_iff in Hx as (n & <- & Hn).
    - unfold entry. apply nth_Forall_nonneg, NN, Hn.
    - unfold evidence_weight. destruct (dget (dn_name n) ev) as [[y|p]|] eqn:E; [|apply nth_Forall_nonneg|discriminate].
      + destruct (String.eqb _ _); [discriminate|apply Qcle_refl].
      + destruct EV as [_ EV]. apply dget_In in E. apply (EV _ _ E). apply in_map, Hn. }
  unfold mass. induction (states (bvars b)) as [|s l IH]; [apply Qcle_refl|]. cbn [filter agrees forallb]. destruct (agrees q s); cbn [map qsum].
  - apply Qcplus_le_compat; [apply Qcle_refl|exact IH].
  - rewrite <- (Qcplus_0_l (qsum (map (weight b ev) (filter (agrees q) l)))). apply Qcplus_le_compat; [apply W|exact IH].
Qed.
End Top.

Section Numbers.
Context {RD : Rounding}.
Local Open Scope Qc_scope.

Lemma close_abs k x y : close k x y -> x <= 1 -> y - x <= power (1 + ulp) k - 1 /\ x - y <= power (1 + ulp) k - 1.
Proof.
  intros (A & B & C & D) X. assert (G := power_ge k). set (p := power (1 + ulp) k) in *.
  assert (P0 : 0 <= p - 1). { rewrite <- (Qcplus_opp_r 1). apply Qcplus_le_compat; [exact G|apply Qcle_refl]. }
  assert (H : (p - 1) * x <= (p - 1) * 1) by (apply le_mul; try assumption; [discriminate|apply Qcle_refl]).
  rewrite Qcmult_1_r in H. split.
  - eapply Qcle_trans; [|exact H]. replace ((p - 1) * x) with (p * x - x) by ring. apply Qcplus_le_compat; [exact C|apply Qcle_refl].
  - destruct (Qclt_le_dec x y) as [L|L].
    + eapply Qcle_trans; [|exact P0]. rewrite <- (Qcplus_opp_r y). apply Qcplus_le_compat; [apply Qclt_le_weak, L|apply Qcle_refl].
    + apply Qcle_trans with ((p - 1) * y).
      * replace ((p - 1) * y) with (p * y - y) by ring. apply Qcplus_le_compat; [exact D|apply Qcle_refl].
      * eapply Qcle_trans; [|exact H]. apply le_mul; try assumption. apply Qcle_refl.
Qed.

Lemma power_linear k : qnat k * ulp <= 1 / (1 + 1) -> power (1 + ulp) k <= 1 + (1 + 1) * (qnat k * ulp).
Proof.
  induction k as [|k IH]; intros H.
  - rewrite qnat_0. cbn [power]. replace (1 + (1 + 1) * (0 * ulp)) with 1 by ring. apply Qcle_refl.
  - rewrite qnat_S in *. assert (U := ulp_nonneg). assert (N := qnat_nonneg k).
    assert (HK : qnat k * ulp <= 1 / (1 + 1)).
    { eapply Qcle_trans; [|exact H]. replace ((1 + qnat k) * ulp) with (ulp + qnat k * ulp) by ring. rewrite <- (Qcplus_0_l (qnat k * ulp)) at 1. apply Qcplus_le_compat; [exact U|apply Qcle_refl]. }
    specialize (IH HK). cbn [power]. apply Qcle_trans with ((1 + ulp) * (1 + (1 + 1) * (qnat k * ulp))).
    { apply le_mul; [apply one_nonneg| |apply Qcle_refl|exact IH]. apply Qcplus_nonneg; [discriminate|]. apply Qcmult_nonneg; [discriminate|]. apply Qcmult_nonneg; assumption. }
    replace ((1 + ulp) * (1 + (1 + 1) * (qnat k * ulp))) with (1 + (1 + 1) * (qnat k * ulp) + ulp * (1 + (1 + 1) * (qnat k * ulp))) by ring.
    replace (1 + (1 + 1) * ((1 + qnat k) * ulp)) with (1 + (1 + 1) * (qnat k * ulp) + ulp * (1 + 1)) by ring.
    apply Qcplus_le_compat; [apply Qcle_refl|]. apply le_mul; [exact U|discriminate|apply Qcle_refl|].
    apply Qcplus_le_compat; [apply Qcle_refl|]. replace 1 with ((1 + 1) * (1 / (1 + 1))) at 3 by (apply Qc_is_canon; reflexivity).
    apply le_mul; [discriminate|discriminate|apply Qcle_refl|exact HK].
Qed.

(** ** Draws *)
Lemma rtotal_from ws s : Forall (fun w => 0 <= w) ws -> 0 <= s -> rnd s = s ->
  s <= fold_left (fun s w => rnd (s + w)) ws s /\ rnd (fold_left (fun s w => rnd (s + w)) ws s) = fold_left (fun s w => rnd (s + w)) ws s.
Proof.
  intros F. revert s. induction F as [|w ws W F IH]; intros s S R; cbn; [split; [apply Qcle_refl|exact R]|].
  assert (SW : s <= s + w) by (rewrite <- (Qcplus_0_r s) at 1; apply Qcplus_le_compat; [apply Qcle_refl|exact W]).
  assert (S2 : s <= rnd (s + w)) by (rewrite <- R at 1; apply rnd_mono; assumption).
  destruct (IH (rnd (s + w))) as [I1 I2].
  - eapply Qcle_trans; eassumption.
  - apply rnd_idem. apply Qcplus_nonneg; assumption.
  - split; [eapply Qcle_trans; eassumption|exact I2].
Qed.

Lemma rroulette_hits values ws s r : length values = length ws -> ws <> [] -> Forall (fun w => 0 <= w) ws -> 0 <= s -> rnd s = s ->
  r <= fold_left (fun s w => rnd (s + w)) ws s ->
  exists i, (i < length ws)%nat /\ rroulette values ws s r = Some (nth i values ""%string) /\ (s < r -> 0 < nth i ws 0).
Proof.
  intros L NE F. revert values L NE s. induction F as [|w ws W F IH]; intros [|x values] L NE s S R H; try discriminate; [congruence|]. cbn [rroulette fold_left] in *.
  assert (S2 : 0 <= rnd (s + w)) by (apply rnd_nonneg, Qcplus_nonneg; assumption). assert (R2 : rnd (rnd (s + w)) = rnd (s + w)) by (apply rnd_idem, Qcplus_nonneg; assumption).
  destruct (qleb r (rnd (s + w))) eqn:Q.
  - exists 0%nat. split; [cbn; lia|]. split; [reflexivity|]. intros SR. cbn. apply Qc_nonneg_neq0_pos; [exact W|]. intros ->. apply qleb_true in Q. rewrite Qcplus_0_r, R in Q. exact (Qclt_not_le _ _ SR Q).
  - assert (G : rnd (s + w) < r) by (apply Qcnot_le_lt; intros E; apply qleb_true in E; congruence).
    destruct ws as [|w2 ws]; [exfalso; cbn in H; exact (Qclt_not_le _ _ G H)|].
    destruct (IH values ltac:(cbn in L |- *; lia) ltac:(discriminate) _ S2 R2 H) as (i & I1 & I2 & I3). exists (Datatypes.S i). split; [cbn in *; lia|]. split; [exact I2|]. intros _. apply I3, G.
Qed.

Lemma rdraw_hits values ws u : length values = length ws -> ws <> [] -> Forall (fun w => 0 <= w) ws -> 0 <= u -> u <= 1 ->
  exists i, (i < length ws)%nat /\ rdraw values ws u = Some (nth i values ""%string) /\ (0 < u -> (exists w, In w ws /\ 0 < w) -> 0 < nth i ws 0).
Proof.
  intros L NE F U0 U1. unfold rdraw, rtotal. destruct (rtotal_from ws 0 F (Qcle_refl 0) rnd_zero) as [T0 T1]. set (t := fold_left (fun s w => rnd (s + w)) ws 0) in *.
  assert (UT : u * t <= t) by (rewrite <- (Qcmult_1_l t) at 2; apply Qcmult_le_compat_r; assumption). assert (UT0 : 0 <= u * t) by (apply Qcmult_nonneg; assumption).
  destruct (rroulette_hits values ws 0 (rnd (u * t)) L NE F (Qcle_refl 0) rnd_zero) as (i & I1 & I2 & I3); [fold t; eapply Qcle_trans; [apply rnd_mono; [exact UT0|exact UT]|rewrite T1; apply Qcle_refl]|].
  exists i. split; [exact I1|]. split; [exact I2|]. intros UP (w & Hw & WP). apply I3. apply (close_pos 1 (u * t)); [apply close_rnd, UT0|]. apply Qcmult_pos; [exact UP|].
  clear - F Hw WP. unfold t. assert (Z : forall l s, Forall (fun w => 0 <= w) l -> 0 <= s -> rnd s = s -> (0 < s \/ In w l) -> 0 < fold_left (fun s w => rnd (s + w)) l s).
  { induction l as [|x l IH]; intros s FL S R [H|H]; try (destruct H; fail); [exact H| |]; (assert (X0 : 0 <= x) by (inversion FL; assumption)); (assert (FL2 : Forall (fun w => 0 <= w) l) by (inversion FL; assumption)); cbn.
    - apply IH; [assumption|apply rnd_nonneg, Qcplus_nonneg; assumption|apply rnd_idem, Qcplus_nonneg; assumption|]. left.
      apply (close_pos 1 (s + x)); [apply close_rnd, Qcplus_nonneg; assumption|]. eapply Qclt_le_trans; [exact H|]. rewrite <- (Qcplus_0_r s) at 1. apply Qcplus_le_compat; [apply Qcle_refl|assumption].
    - apply IH; [assumption|apply rnd_nonneg, Qcplus_nonneg; assumption|apply rnd_idem, Qcplus_nonneg; assumption|]. destruct H as [->|H]; [|right; exact H]. left.
      apply (close_pos 1 (s + w)); [apply close_rnd, Qcplus_nonneg; assumption|]. eapply Qclt_le_trans; [exact WP|]. rewrite <- (Qcplus_0_l w) at 1. apply Qcplus_le_compat; [assumption|apply Qcle_refl]. }
  apply Z; [exact F|apply Qcle_refl|apply rnd_zero|right; exact Hw].
Qed.

Lemma sp_nonneg n x st p : Forall (fun q => 0 <= q) (data (dn_cpd n)) -> sp n x st = Ok p -> 0 <= p.
Proof.
  intros F. unfold sp. match goal with |- context [rbind ?m _] => destruct m as [i|] end; cbn [rbind]; [|discriminate]. destruct (mapM _ _) as [s|]; cbn [rbind]; [|discriminate].
  unfold aget_err. destruct (inbb _ _); [|discriminate]. intros E; inversion E; subst. apply nth_Forall_nonneg, F.
Qed.

Lemma rmarkov_close n x cs st fwd p : (forall m, m = n \/ In m cs -> Forall (fun q => 0 <= q) (data (dn_cpd m))) ->
  get_markov_prob n x cs st fwd = Ok p -> exists p', rmarkov n x cs st fwd = Ok p' /\ close (length cs) p p'.
Proof.
  intros F. unfold get_markov_prob, rmarkov. destruct (sp n x st) as [p0|] eqn:E0; cbn [rbind]; [|discriminate].
  assert (P0 := sp_nonneg _ _ _ _ (F n (or_introl eq_refl)) E0). destruct fwd; [intros E; inversion E; subst; eexists; split; [reflexivity|apply close_refl, P0]|].
  assert (G : forall l k q q', (forall m, In m l -> In m cs) -> close k q q' -> forall p, foldM (fun p c => let* y := dget_err KeyError (dn_name c) st in let* q := sp c y st in Ok (p * q)) l q = Ok p ->
    exists p', foldM (fun p c => let* y := dget_err KeyError (dn_name c) st in let* q := sp c y st in Ok (rnd (p * q))) l q' = Ok p' /\ close (k + length l) p p').
  { induction l as [|c l IH]; intros k q q' I C p1 E; cbn [foldM length] in *.
    - inversion E; subst. eexists; split; [reflexivity|]. eapply close_mono; [|exact C]. lia.
    - destruct (dget_err KeyError (dn_name c) st) as [y|]; cbn [rbind] in *; [|discriminate]. destruct (sp c y st) as [q2|] eqn:E2; cbn [rbind] in *; [|discriminate].
      assert (Q2 := sp_nonneg _ _ _ _ (F c (or_intror (I c (or_introl eq_refl)))) E2).
      assert (CM := close_mul k 0 _ _ _ _ C (close_refl 0 q2 Q2)).
      assert (CR := close_trans _ _ _ _ _ CM (close_rnd _ (proj1 (proj2 CM)))).
      destruct (IH _ _ _ (fun m H => I m (or_intror H)) CR p1 E) as (p' & E' & C'). exists p'. split; [exact E'|]. eapply close_mono; [|exact C']. lia. }
  intros E. exact (G cs 0%nat p0 p0 (fun m H => H) (close_refl 0 p0 P0) p E).
Qed.

Lemma rsample_hits g k n st cs fwd : rng_ok g -> dn_values n <> [] -> (forall m, m = n \/ In m cs -> Forall (fun q => 0 <= q) (data (dn_cpd m))) ->
  (forall y, In y (dn_values n) -> exists p, get_markov_prob n y cs (dset (dn_name n) y st) fwd = Ok p) ->
  exists x p, rsample_value g k n st cs fwd = Ok (Some x) /\ In x (dn_values n) /\ get_markov_prob n x cs (dset (dn_name n) x st) fwd = Ok p /\
    (0 < unif g k -> (exists y p, In y (dn_values n) /\ get_markov_prob n y cs (dset (dn_name n) y st) fwd = Ok p /\ 0 < p) -> 0 < p).
Proof.
  intros RG NE F EX. unfold rsample_value.
  assert (H : exists ws, mapM (fun x => rmarkov n x cs (dset (dn_name n) x st) fwd) (dn_values n) = Ok ws /\
    Forall2 (fun x w => exists p, get_markov_prob n x cs (dset (dn_name n) x st) fwd = Ok p /\ close (length cs) p w) (dn_values n) ws).
  { induction (dn_values n) as [|x l IH] in EX |- *; cbn [mapM]; [eexists; split; [reflexivity|constructor]|]. destruct (EX x (or_introl eq_refl)) as (p & E).
    destruct (rmarkov_close _ _ _ _ _ _ F E) as (p' & E' & C). rewrite E'. cbn [rbind]. destruct (IH (fun y Hy => EX y (or_intror Hy))) as (ws & EW & FW). rewrite EW. cbn [rbind].
    eexists; split; [reflexivity|]. constructor; [eauto|exact FW]. }
  destruct H as (ws & EW & FW). rewrite EW. cbn [rbind]. assert (L := forall2_length _ _ _ _ _ FW).
  assert (NW : ws <> []) by (intros ->; destruct (dn_values n); [congruence|discriminate]).
  assert (FN : Forall (fun w => 0 <= w) ws). { clear - FW. induction FW as [|x w l ws (p & _ & C) FW IH]; constructor; [apply C|exact IH]. }
  assert (FI : forall i, (i < length ws)%nat -> exists p, get_markov_prob n (nth i (dn_values n) ""%string) cs (dset (dn_name n) (nth i (dn_values n) ""%string) st) fwd = Ok p /\ close (length cs) p (nth i ws 0)).
  { clear - FW. induction FW as [|x w l ws H FW IH]; intros [|i] Hi; cbn [length] in Hi; try lia; [exact H|]. apply IH. lia. }
  destruct (RG k) as [U0 U1]. destruct (rdraw_hits (dn_values n) ws (unif g k) L NW FN U0 (Qclt_le_weak _ _ U1)) as (i & Hi & E & POS).
  destruct (FI i Hi) as (p & EP & CP). exists (nth i (dn_values n) ""%string), p. rewrite E. split; [reflexivity|]. split; [apply nth_In; rewrite L; exact Hi|]. split; [exact EP|].
  intros UP (y & py & Hy & Ey & Py). apply (close_pos _ _ _ CP). apply (POS UP). apply In_nth with (d := ""%string) in Hy as (j & Hj & <-). rewrite L in Hj.
  destruct (FI j Hj) as (p2 & E2 & C2). rewrite Ey in E2. inversion E2; subst p2. exists (nth j ws 0). split; [apply nth_In, Hj|]. apply (close_pos _ _ _ C2), Py.
Qed.
End Numbers.
