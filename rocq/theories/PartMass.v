(** The posterior of one component. *)
From Coq Require Import Field.
From Verif Require Import Base BaseFacts NDArray NDArrayFacts SumCalc Factor FactorFacts Exact Spec SpecFacts MCSpec MCFacts DecNorm SepSpec SepRelevant PartSpec.

Lemma apart_ancestral b S : apart b S -> ancestral b S.
Proof. intros H n p Hn Sn Hp. apply (H n p Hn Hp), Sn. Qed.

Lemma apart_rest b S : wf_bn b -> apart b S -> apart b (others b S).
Proof.
  intros WB H n p Hn Hp. specialize (H n p Hn Hp). rewrite !others_In.
  assert (In (dn_name n) (bnames b)) by exact (in_map dn_name _ _ Hn).
  assert (In p (bnames b)).
  { apply in_map_iff in Hp as ([q vals] & <- & Hq). destruct (wn_pvals _ _ (wb_nodes _ WB n Hn) q vals Hq) as (m & Hm & <- & _). exact (in_map dn_name _ _ Hm). }
  tauto.
Qed.

Lemma ev_part_get S ev v : In v S -> dget v (ev_part S ev) = dget v ev.
Proof.
  intros Hv. unfold ev_part. induction ev as [|[w e] ev IH]; [reflexivity|]. cbn. destruct (String.eqb_spec v w) as [<-|N].
  - apply mem_In in Hv. rewrite Hv. cbn. now rewrite eqb_refl_s.
  - destruct (mem w S); [|exact IH]. cbn. apply String.eqb_neq in N. now rewrite N.
Qed.

Lemma ev_part_ok b S ev : ev_ok b ev -> ev_ok b (ev_part S ev).
Proof.
  intros [ND H]. split.
  - unfold ev_part, dkeys in *. clear H. induction ev as [|[w e] ev IH]; cbn in *; [constructor|]. inversion ND as [|? ? N ND']; subst.
    destruct (mem w S); [|apply IH, ND']. cbn. constructor; [|apply IH, ND']. intros X. apply N. apply in_map_iff in X as (y & E & Hy).
    apply filter_In in Hy as [Hy _]. rewrite <- E. apply in_map, Hy.
  - intros v e He. apply H. unfold ev_part in He. apply filter_In in He. tauto.
Qed.

Lemma ev_part_keys b S ev : apart b S -> incl (dkeys ev) (bnames b) -> incl (dkeys (ev_part S ev)) (bnames (restrict b S)).
Proof.
  intros AP K v Hv. unfold ev_part in Hv. apply in_map_iff in Hv as ([w e] & <- & Hw). apply filter_In in Hw as [Hw M]. cbn [fst] in *.
  apply r_name. split; [apply K; exact (in_map fst _ _ Hw)|apply mem_In, M].
Qed.

Section Mass.
Variable b : bn.
Hypothesis WB : wf_bn b.
Variable S : list string.
Hypothesis AP : apart b S.
Notation r := (restrict b S).
Notation s := (restrict b (others b S)).
Notation card := (card (values_of b)).
Let AN := apart_ancestral b S AP.
Let AN' := apart_ancestral b (others b S) (apart_rest b S WB AP).

Lemma iweight_part ev a : iweight r (ev_part S ev) a = iweight r ev a.
Proof.
  unfold iweight. apply qprod_map_ext. intros n Hn. apply r_node in Hn as [_ Sn]. unfold ievw. now rewrite ev_part_get.
Qed.

Lemma iweight_both ev a : iweight b ev a = (iweight r ev a * iweight s ev a)%Qc.
Proof.
  unfold iweight. rewrite (qprod_perm _ _ (Permutation_map _ (filter_split (fun n => mem (dn_name n) S) (bnodes b)))), map_app, qprod_app. f_equal.
  cbn [restrict bnodes]. f_equal. f_equal. apply filter_ext_in. intros n Hn. apply eq_true_iff_eq. rewrite negb_true_iff, mem_nIn, mem_In, others_In.
  assert (In (dn_name n) (bnames b)) by exact (in_map dn_name _ _ Hn). tauto.
Qed.

Lemma rest_names : others b S = bnames s.
Proof.
  rewrite r_names. unfold others. apply filter_ext_in. intros v Hv. apply eq_true_iff_eq. rewrite (mem_In v (filter _ _)), filter_In. tauto.
Qed.

Lemma mass_rest ev a : ev_ok b ev -> sum_over card (others b S) (iweight s ev) a = mass s ev [].
Proof.
  intros EV. rewrite (mass_sum s (r_wf b WB _ AN') ev [] []); [|apply r_ev; assumption|apply is_inst_nil|constructor|intros v []].
  assert (E : others s [] = others b S).
  { symmetry. rewrite rest_names at 1. unfold others at 2. clear. induction (bnames s) as [|v l IH]; [reflexivity|]. cbn. now f_equal. }
  rewrite E. rewrite (sum_over_card card (FactorFacts.card (values_of s))).
  - apply (sum_over_deps _ (bnames s)); [apply (iweight_deps s (r_wf b WB _ AN'))|]. intros v Hv N. exfalso. apply N. now rewrite rest_names.
  - intros v Hv. unfold FactorFacts.card. rewrite rest_names in Hv. now rewrite (r_dom b WB _ AN' v Hv).
Qed.

Lemma mass_part ev q vs : ev_ok b ev -> is_inst b vs q -> NoDup vs -> incl vs (bnames r) ->
  mass b ev q = (mass r (ev_part S ev) q * mass s ev [])%Qc.
Proof.
  intros EV HI ND I. assert (I' : incl vs (bnames b)) by (intros v Hv; apply (r_name b S v), I, Hv).
  rewrite (mass_sum b WB ev q vs EV HI ND I').
  rewrite (mass_sum r (r_wf b WB S AN) (ev_part S ev) q vs (r_ev b WB S AN _ (ev_part_ok b S ev EV)) (proj1 (r_inst b WB S AN vs q I) HI) ND I).
  assert (P : Permutation (others b vs) (others r vs ++ others b S)).
  { eapply Permutation_trans; [apply (filter_split (fun v => mem v S))|]. apply Permutation_app.
    - unfold others. rewrite r_names. clear. induction (bnames b) as [|v l IH]; cbn; [constructor|].
      destruct (mem v vs) eqn:E, (mem v S) eqn:F; cbn; rewrite ?E, ?F; cbn; try exact IH. constructor; exact IH.
    - unfold others. assert (J : incl vs S) by (intros v Hv; apply (r_name b S v), I, Hv). clear - J.
      induction (bnames b) as [|v l IH]; cbn; [constructor|].
      destruct (mem v vs) eqn:E, (mem v S) eqn:F; cbn; rewrite ?E, ?F; cbn; try exact IH; [|constructor; exact IH].
      apply mem_In, J, mem_In in E. congruence. }
  rewrite (sum_over_perm card _ _ (iweight b ev) (iweight_ext b WB ev) P), sum_over_app.
  transitivity (sum_over card (others r vs) (fun a => mass s ev [] * iweight r ev a)%Qc (asg_q b q)).
  - apply sum_over_ext. intros a.
    transitivity (sum_over card (others b S) (fun a => iweight r ev a * iweight s ev a)%Qc a); [apply sum_over_ext, iweight_both|].
    rewrite (sum_over_mult_l card _ (bnames r)); [rewrite (mass_rest ev a EV); ring|apply (iweight_deps r (r_wf b WB S AN))|].
    intros v Hv X. apply others_In in X as [_ X]. apply X. apply (r_name b S v), Hv.
  - rewrite (sum_over_mult_l card _ [] (fun _ => mass s ev [])); [|intros ? ? _; reflexivity|intros v []]. rewrite Qcmult_comm. f_equal.
    rewrite (sum_over_card card (FactorFacts.card (values_of r))).
    + transitivity (sum_over (FactorFacts.card (values_of r)) (others r vs) (iweight r (ev_part S ev)) (asg_q b q)).
      * apply sum_over_ext. intros a. symmetry. apply iweight_part.
      * apply (sum_over_deps _ (bnames r)); [apply (iweight_deps r (r_wf b WB S AN))|]. intros v Hv _. unfold asg_q. rewrite (r_dom b WB S AN v Hv). reflexivity.
    + intros v Hv. apply others_In in Hv as [Hv _]. unfold FactorFacts.card. rewrite (r_dom b WB S AN v Hv). reflexivity.
Qed.

Lemma mass_total ev : ev_ok b ev -> mass b ev [] = (mass r (ev_part S ev) [] * mass s ev [])%Qc.
Proof. intros EV. apply (mass_part ev [] []); [exact EV|apply is_inst_nil|constructor|intros v []]. Qed.

Lemma posterior_part ev q vs : ev_ok b ev -> is_inst b vs q -> NoDup vs -> incl vs (bnames r) -> mass b ev [] <> 0%Qc ->
  posterior b ev q = posterior r (ev_part S ev) q.
Proof.
  intros EV HI ND I M. unfold posterior. apply qeqb_false in M as Q1. rewrite Q1. rewrite (mass_part ev q vs EV HI ND I). rewrite (mass_total ev EV) in *.
  assert (M1 : mass r (ev_part S ev) [] <> 0%Qc) by (intros E; apply M; rewrite E; ring).
  assert (M2 : mass s ev [] <> 0%Qc) by (intros E; apply M; rewrite E; ring).
  apply qeqb_false in M1 as Q2. rewrite Q2. field. auto.
Qed.
End Mass.
