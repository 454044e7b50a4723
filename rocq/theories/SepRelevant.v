(** Variables outside an ancestral set sum out to one. *)
From Verif Require Import Base BaseFacts NDArray NDArrayFacts SumCalc Factor FactorFacts Exact Spec SpecFacts MCSpec MCFacts DecNorm SepSpec.

Section Rel.
Variable b : bn.
Hypothesis WB : wf_bn b.
Variable S : list string.
Hypothesis AN : ancestral b S.
Notation dom := (values_of b).
Notation card := (card dom).
Notation r := (restrict b S).

Lemma r_node n : In n (bnodes r) <-> In n (bnodes b) /\ In (dn_name n) S.
Proof. cbn [restrict bnodes]. rewrite filter_In, mem_In. reflexivity. Qed.

Lemma r_names : bnames r = filter (fun v => mem v S) (bnames b).
Proof. unfold bnames. cbn [restrict bnodes]. symmetry. apply (filter_map_comm dn_name (fun v => mem v S)). Qed.

Lemma r_name v : In v (bnames r) <-> In v (bnames b) /\ In v S.
Proof. rewrite r_names, filter_In, mem_In. reflexivity. Qed.

Lemma r_wf : wf_bn r.
Proof.
  split; [rewrite r_names; apply NoDup_filter, WB|]. intros n Hn. apply r_node in Hn as [Hn Sn].
  destruct (wb_nodes _ WB n Hn) as [W1 W2 W3 W4 W5 W6]. split; try assumption.
  intros p vals Hp. destruct (W3 p vals Hp) as (m & Hm & E1 & E2). exists m. split; [|auto].
  apply r_node. split; [exact Hm|]. rewrite E1. apply (AN n p Hn Sn). exact (in_map fst _ _ Hp).
Qed.

Lemma r_dom v : In v (bnames r) -> values_of r v = dom v.
Proof.
  intros H. apply (in_bnames r) in H as (n & Hn & <-). rewrite (values_of_node r r_wf n Hn). apply r_node in Hn as [Hn _].
  symmetry. apply values_of_node; assumption.
Qed.

Lemma r_nonneg : nonneg_bn b -> nonneg_bn r.
Proof. intros H n Hn. apply H. apply r_node in Hn. tauto. Qed.

Lemma r_ev ev : ev_ok b ev -> ev_ok r ev.
Proof.
  intros [ND H]. split; [exact ND|]. intros v e He Hv. assert (Hb := proj1 (proj1 (r_name v) Hv)). specialize (H v e He Hb).
  rewrite (r_dom v Hv). exact H.
Qed.

Lemma r_inst vs q : incl vs (bnames r) -> is_inst b vs q <-> is_inst r vs q.
Proof.
  intros I. unfold is_inst. assert (E : (forall v, In v (dkeys q) <-> In v vs) -> forall v x, In (v, x) q -> values_of r v = dom v).
  { intros K v x H. apply r_dom, I, K. exact (in_map fst _ _ H). }
  split; intros (A & K & V); (split; [exact A|]; split; [exact K|]); intros v x H; specialize (V v x H); rewrite (E K v x H) in *; exact V.
Qed.

Variable order : list string.
Hypothesis TO : topological b order.
Hypothesis ST : stochastic_outside b S.

Lemma filter_split {A} (P : A -> bool) l : Permutation l (filter P l ++ filter (fun x => negb (P x)) l).
Proof.
  induction l as [|x l IH]; cbn; [constructor|]. destruct (P x); cbn; [constructor; exact IH|].
  apply Permutation_cons_app, IH.
Qed.

Lemma sum_over_card (c c' : string -> nat) vs F a : (forall v, In v vs -> c v = c' v) -> sum_over c vs F a = sum_over c' vs F a.
Proof.
  revert a; induction vs as [|v vs IH]; intros a H; cbn; [reflexivity|]. rewrite (H v) by (left; reflexivity).
  apply bigsum_ext. intros i _. apply IH. intros w Hw. apply H. right; exact Hw.
Qed.

Lemma mass_restrict ev q vs : ev_ok b ev -> within_set b ev S -> is_inst b vs q -> NoDup vs -> incl vs (bnames r) ->
  mass b ev q = mass r ev q.
Proof.
  intros EV WS HI ND I. assert (I' : incl vs (bnames b)) by (intros v Hv; apply r_name, I, Hv).
  rewrite (mass_sum b WB ev q vs EV HI ND I').
  rewrite (mass_sum r r_wf ev q vs (r_ev ev EV) (proj1 (r_inst vs q I) HI) ND I).
  assert (P : Permutation (others b vs) (others r vs ++ others b S)).
  { eapply Permutation_trans; [apply (filter_split (fun v => mem v S))|]. apply Permutation_app.
    - unfold others. rewrite r_names. clear. induction (bnames b) as [|v l IH]; cbn; [constructor|].
      destruct (mem v vs) eqn:E, (mem v S) eqn:F; cbn; rewrite ?E, ?F; cbn; try exact IH. constructor; exact IH.
    - unfold others. assert (J : incl vs S) by (intros v Hv; apply (r_name v), I, Hv). clear - J.
      induction (bnames b) as [|v l IH]; cbn; [constructor|].
      destruct (mem v vs) eqn:E, (mem v S) eqn:F; cbn; rewrite ?E, ?F; cbn; try exact IH; [|constructor; exact IH].
      apply mem_In, J, mem_In in E. congruence. }
  rewrite (sum_over_perm card _ _ (iweight b ev) (iweight_ext b WB ev) P), sum_over_app.
  assert (C : forall v, In v (others r vs) -> card v = FactorFacts.card (values_of r) v).
  { intros v Hv. apply others_In in Hv as [Hv _]. unfold FactorFacts.card. rewrite (r_dom v Hv). reflexivity. }
  rewrite <- (sum_over_card card _ (others r vs) (iweight r ev) (asg_q r q)) by exact C.
  set (inner := sum_over card (others b S) (iweight b ev)).
  assert (DI : forall a, inrange card (bnames b) a -> inner a = iweight r ev a).
  { intros a R. unfold inner.
    transitivity (sum_over card (others b S) (fun c => iweight r ev c * qprod (map (fun n => feval (from_node n) c) (filter (fun n => negb (mem (dn_name n) S)) (bnodes b))))%Qc a).
    - apply sum_over_ext. intros c. unfold iweight.
      rewrite (qprod_perm _ _ (Permutation_map _ (filter_split (fun n => mem (dn_name n) S) (bnodes b)))), map_app, qprod_app.
      f_equal. apply qprod_map_ext. intros n Hn. apply filter_In in Hn as [Hn Nn]. apply negb_true_iff, mem_nIn in Nn.
      unfold ievw. assert (E : dget (dn_name n) ev = None).
      { apply dget_None. intros X. apply Nn, (WS _ X). apply in_map, Hn. }
      rewrite E. ring.
    - rewrite (sum_over_mult_l card _ (bnames r)); [|apply (iweight_deps r r_wf)|].
      + rewrite (total_one b WB order TO S ST a R). ring.
      + intros v Hv X. apply others_In in X as [_ X]. apply X. apply (r_name v), Hv. }
  transitivity (sum_over card (others r vs) (iweight r ev) (asg_q b q)).
  - assert (PR : exists a0, inrange card (bnames b) a0 /\ forall v, In v vs -> a0 v = asg_q b q v).
    { exists (fun v => if mem v vs then asg_q b q v else 0). split.
      - intros v Hv. destruct (mem v vs) eqn:E; [apply (asg_q_range b vs q HI), mem_In, E|].
        unfold FactorFacts.card. apply (in_bnames b) in Hv as (n & Hn & <-). rewrite (values_of_node b WB n Hn).
        destruct (wb_nodes _ WB n Hn) as [[W _] _ _ _ _ _]. destruct (dn_values n); [congruence|cbn; lia].
      - intros v Hv. apply mem_In in Hv. rewrite Hv. reflexivity. }
    destruct PR as (a0 & R0 & E0).
    assert (D1 : deps (bnames r) inner).
    { intros x y E. unfold inner. apply (sum_over_deps card (bnames b)); [apply iweight_deps, WB|].
      intros v Hv Nv. apply E. apply r_name. split; [exact Hv|]. destruct (In_dec_s v S) as [X|X]; [exact X|].
      exfalso. apply Nv. apply others_In. split; assumption. }
    rewrite (sum_over_deps card (bnames r) (others r vs) inner D1 (asg_q b q) a0).
    + rewrite (sum_over_deps card (bnames r) (others r vs) (iweight r ev) (iweight_deps r r_wf ev) (asg_q b q) a0).
      * apply sum_over_ext_in. intros c Rc Ec. apply DI. intros v Hv. destruct (In_dec_s v (others r vs)) as [X|X]; [apply Rc, X|].
        rewrite (Ec v X). apply R0, Hv.
      * intros v Hv Nv. symmetry. apply E0. destruct (In_dec_s v vs) as [X|X]; [exact X|]. exfalso. apply Nv, others_In. tauto.
    + intros v Hv Nv. symmetry. apply E0. destruct (In_dec_s v vs) as [X|X]; [exact X|]. exfalso. apply Nv, others_In. tauto.
  - apply (sum_over_deps card (bnames r)); [apply (iweight_deps r r_wf)|].
    intros v Hv _. unfold asg_q. rewrite (r_dom v Hv). reflexivity.
Qed.

Theorem posterior_restrict ev q vs : ev_ok b ev -> within_set b ev S -> is_inst b vs q -> NoDup vs -> incl vs (bnames r) ->
  posterior b ev q = posterior r ev q.
Proof.
  intros EV WS HI ND I. unfold posterior. rewrite (mass_restrict ev q vs EV WS HI ND I).
  rewrite (mass_restrict ev [] [] EV WS (is_inst_nil b)); [reflexivity|constructor|intros v []].
Qed.
End Rel.
