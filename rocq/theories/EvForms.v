(** Named values and indicator weights; scaled weights; weights that are all equal. *)
From Coq Require Import Field.
From Verif Require Import Base BaseFacts NDArray NDArrayFacts SumCalc Factor FactorFacts Exact Spec SpecFacts FactorSpec FactorProofs VEProof VEProof2
  Order OrderSpec JoinTree HuginPure Hugin JTProof JTProof2 TreeSpec JTTop JTHistory LawKernel EvSpec.

Lemma list_set_indicator x vals i : NoDup vals -> index_of x vals = Some i ->
  list_set i 1%Qc (repeat 0%Qc (length vals)) = indicator x vals.
Proof.
  intros ND. revert i. induction ND as [|y l N ND IH]; intros i H; cbn in H; [discriminate|]. cbn [length repeat indicator map].
  rewrite String.eqb_sym in H. destruct (String.eqb_spec y x) as [->|E].
  - inversion H; subst. cbn [list_set]. f_equal. clear - N. induction l as [|z l IH]; cbn; [reflexivity|].
    destruct (String.eqb_spec z x) as [->|]; [exfalso; apply N; now left|]. f_equal. apply IH. intros I. apply N. now right.
  - destruct (index_of x l) as [j|]; [|discriminate]. inversion H; subst. cbn [list_set]. f_equal. now apply IH.
Qed.

Lemma indicator_length x vals : length (indicator x vals) = length vals.
Proof. apply map_length. Qed.

Lemma indicator_nth x vals i : i < length vals -> nth i (indicator x vals) 0%Qc = if String.eqb (nth i vals "") x then 1%Qc else 0%Qc.
Proof.
  intros L. unfold indicator. rewrite (nth_indep _ 0%Qc ((fun y => if String.eqb y x then 1%Qc else 0%Qc) "")) by (rewrite map_length; exact L).
  now rewrite (map_nth (fun y => if String.eqb y x then 1%Qc else 0%Qc)).
Qed.

Lemma argmax_indicator x vals : NoDup vals -> In x vals -> argmax (indicator x vals) = Some (idx x vals, 1%Qc).
Proof.
  intros ND I. destruct (argmax_spec (indicator x vals)) as (r & E & L & M).
  { destruct vals; [contradiction|discriminate]. }
  rewrite E. rewrite indicator_length in L. rewrite indicator_nth in E, M by exact L. rewrite indicator_nth by exact L.
  destruct (String.eqb_spec (nth r vals "") x) as [X|X].
  - rewrite <- X at 1. now rewrite idx_nth.
  - exfalso. specialize (M 1%Qc). assert (H : In 1%Qc (indicator x vals)) by (apply in_map_iff; exists x; rewrite eqb_refl_s; auto).
    apply M in H. revert H. apply Qclt_not_le. reflexivity.
Qed.

Lemma soft_ratio_indicator x vals old : NoDup vals -> In x vals -> length old = length vals ->
  soft_ratio (indicator x vals) old = Ok (indicator x vals).
Proof.
  intros ND I L. unfold soft_ratio. rewrite argmax_indicator by assumption. rewrite indicator_length.
  rewrite (mapM_total _ (fun i => nth i (indicator x vals) 0%Qc)).
  - f_equal. apply nth_ext with (d := 0%Qc) (d' := 0%Qc); [now rewrite map_length, seq_length, indicator_length|].
    intros i Hi. rewrite map_length, seq_length in Hi. rewrite (nth_indep _ 0%Qc ((fun i => nth i (indicator x vals) 0%Qc) 0)) by now rewrite map_length, seq_length.
    rewrite (map_nth (fun i => nth i (indicator x vals) 0%Qc)). now rewrite seq_nth.
  - intros i Hi. apply in_seq in Hi. destruct (Nat.eqb_spec i (idx x vals)) as [->|N].
    + rewrite indicator_nth by now apply idx_lt. rewrite nth_idx by exact I. now rewrite eqb_refl_s.
    + destruct (nth_error old i) as [oi|] eqn:Ei; [|apply nth_error_None in Ei; lia].
      destruct (nth_error old (idx x vals)) as [oj|] eqn:Ej; [|apply nth_error_None in Ej; pose proof (idx_lt _ _ I); lia].
      rewrite indicator_nth by lia. destruct (String.eqb_spec (nth i vals "") x) as [X|X]; [exfalso; apply N; rewrite <- X; symmetry; apply idx_nth; [exact ND|lia]|].
      destruct (qeqb oi 0%Qc); [reflexivity|]. change (qeqb 1%Qc 0%Qc) with false. cbv iota. apply (f_equal Ok). unfold Qcdiv. ring.
Qed.

Lemma evidence_indicator v x vals old : NoDup vals -> In x vals -> (forall o, old = Some o -> length o = length vals) ->
  as_evidence v vals (Soft (indicator x vals)) old = as_evidence v vals (Hard x) old.
Proof.
  intros ND I L. unfold as_evidence. rewrite indicator_length, Nat.eqb_refl. destruct (index_of x vals) as [i|] eqn:E.
  - rewrite (list_set_indicator x vals i ND E). destruct old as [o|]; [|reflexivity]. rewrite soft_ratio_indicator by auto. reflexivity.
  - apply index_of_None in E. contradiction.
Qed.

Section B.
Context {SO : SetOrder}.
Variable b : bn.
Hypothesis WB : wf_bn b.

Lemma dom_nodup v : NoDup (values_of b v).
Proof.
  unfold values_of. destruct (find _ _) as [n|] eqn:F; [|constructor]. apply find_some in F as [F _]. apply (wn_values _ _ (wb_nodes _ WB n F)).
Qed.

(** The evidence factor of an item does not depend on its spelling. *)
Lemma item_spelling v x n old : get_node b v = Ok n -> In x (values_of b v) -> (forall o, old = Some o -> length o = length (values_of b v)) ->
  as_evidence v (dn_values n) (Soft (indicator x (values_of b v))) old = as_evidence v (dn_values n) (Hard x) old.
Proof.
  intros E I L. assert (V : dn_values n = values_of b v).
  { unfold get_node in E. unfold values_of. destruct (find _ _); [now inversion E|discriminate]. }
  rewrite V. apply evidence_indicator; [apply dom_nodup|exact I|exact L].
Qed.

Lemma respelled_keys ev ev' : respelled b ev ev' -> dkeys ev' = dkeys ev.
Proof. unfold dkeys. induction 1; cbn [map fst]; congruence. Qed.

Lemma respelled_dget ev ev' v : respelled b ev ev' -> dget v ev' = dget v ev \/
  exists x, In x (values_of b v) /\ dget v ev = Some (Hard x) /\ dget v ev' = Some (Soft (indicator x (values_of b v))).
Proof.
  induction 1 as [|w e ev ev' R IH|w x ev ev' I R IH]; [now left|..]; cbn [dget]; destruct (String.eqb_spec v w) as [->|N]; auto. right. eauto.
Qed.

Lemma naive_spelling Q ev ev' : respelled b ev ev' -> naive_marginals b Q ev' = naive_marginals b Q ev.
Proof.
  intros R. unfold naive_marginals. assert (E : forall l f, foldM (naive_step b ev') l f = foldM (naive_step b ev) l f).
  { induction l as [|v l IH]; intros f; [reflexivity|]. cbn [foldM].
    assert (S : naive_step b ev' f v = naive_step b ev f v); [|rewrite S; destruct (naive_step b ev f v); cbn [rbind]; [apply IH|reflexivity]].
    unfold naive_step. destruct (get_node b v) as [n|] eqn:G; cbn [rbind]; [|reflexivity]. destruct (fmul f (from_node n)) as [f1|]; cbn [rbind]; [|reflexivity].
    destruct (respelled_dget ev ev' v R) as [->|(x & I & E1 & E2)]; [reflexivity|]. rewrite E1, E2.
    now rewrite (item_spelling v x n None G I ltac:(discriminate)). }
  now rewrite E.
Qed.

Lemma add_evidence_spelling order ev ev' : respelled b ev ev' -> forall bs, foldM (add_evidence b order) ev' bs = foldM (add_evidence b order) ev bs.
Proof.
  induction 1 as [|v e ev ev' R IH|v x ev ev' I R IH]; intros bs; [reflexivity|..]; cbn [foldM].
  - destruct (add_evidence b order bs (v, e)); cbn [rbind]; [apply IH|reflexivity].
  - assert (S : add_evidence b order bs (v, Soft (indicator x (values_of b v))) = add_evidence b order bs (v, Hard x)).
    { unfold add_evidence. cbn [fst snd]. destruct (py_index v order); cbn [rbind]; [|reflexivity]. destruct (get_node b v) as [n|] eqn:G; cbn [rbind]; [|reflexivity].
      now rewrite (item_spelling v x n None G I ltac:(discriminate)). }
    rewrite S. destruct (add_evidence b order bs (v, Hard x)); cbn [rbind]; [apply IH|reflexivity].
Qed.

Lemma bucket_spelling Q ev ev' o : respelled b ev ev' -> bucket_query b Q ev' o = bucket_query b Q ev o.
Proof.
  intros R. unfold bucket_query. destruct (order_or_default b o) as [l|]; cbn [rbind]; [|reflexivity]. unfold bucket_marginals.
  destruct (move_to_end Q l) as [l' [e|]]; [reflexivity|]. cbn [snd]. unfold bucket_core. destruct (mapM (get_node b) l') as [ns|]; cbn [rbind]; [|reflexivity].
  destruct (foldM (place_factor l') _ _) as [bs|]; cbn [rbind]; [|reflexivity]. now rewrite (add_evidence_spelling l' ev ev' R).
Qed.

Lemma tree_item v x old t : In x (values_of b v) -> (forall o, dget v old = Some o -> length o = length (values_of b v)) ->
  add_tree_evidence b old (v, Soft (indicator x (values_of b v))) t = add_tree_evidence b old (v, Hard x) t.
Proof.
  intros I L. unfold add_tree_evidence. cbn [fst snd]. destruct (get_node b v) as [n|] eqn:G; cbn [rbind]; [|reflexivity].
  now rewrite (item_spelling v x n _ G I L).
Qed.

Lemma each_spelling old ev ev' : respelled b ev ev' -> (forall v o, In v (dkeys ev) -> dget v old = Some o -> length o = length (values_of b v)) ->
  forall t, each (add_tree_evidence b old) ev' t = each (add_tree_evidence b old) ev t.
Proof.
  induction 1 as [|v e ev ev' R IH|v x ev ev' I R IH]; intros L t; [reflexivity|..]; cbn [each].
  - destruct (add_tree_evidence b old (v, e) t) as [t1 [u|er]]; [|reflexivity]. apply IH. intros w o H. apply L. now right.
  - rewrite tree_item by (try exact I; intros o; apply L; now left). destruct (add_tree_evidence b old (v, Hard x) t) as [t1 [u|er]]; [|reflexivity].
    apply IH. intros w o H. apply L. now right.
Qed.

Lemma tree_spelling ev ev' t : respelled b ev ev' -> set_evidence b ev' false t = set_evidence b ev false t.
Proof.
  intros R. unfold set_evidence. destruct (reset_factors b t) as [t1 [u|e]]; [|reflexivity].
  rewrite (each_spelling [] ev ev' R) by (intros; discriminate). reflexivity.
Qed.

Lemma tree_spelling_soft ev ev' t r sv : nonneg_bn b -> jt_ok b t r sv -> incl (dkeys ev) (bnames b) -> respelled b ev ev' ->
  set_evidence b ev' true t = set_evidence b ev true t.
Proof.
  intros NN J K R. unfold set_evidence. destruct (reset_loaded b WB t r sv NN J) as (t1 & E1 & S1 & V1 & L1). rewrite E1.
  assert (J1 : jt_ok b t1 r sv) by (eapply jt_ok_same; [reflexivity|symmetry; exact S1|exact J]).
  assert (H1 : holds b t1 r sv (iweight b [])).
  { split; [exact J1|]. right. split; [exact V1|]. eapply loaded_ext; [exact L1|]. intros a _. apply iweight_nil, WB. }
  destruct (calc_holds b WB t1 r sv [] NN (ev_nil b) H1) as (t2 & E2 & H2 & V2). rewrite E2.
  destruct (old_marginals_ok b WB NN (dkeys ev) K t2 r sv H2) as (t3 & E3 & H3). rewrite (respelled_keys _ _ R), E3.
  destruct (reset_factors b t3) as [t4 [u|e]]; [|reflexivity].
  rewrite (each_spelling _ ev ev' R); [reflexivity|]. intros v o Hv D.
  assert (D2 : dget v (map (fun v => (v, prior b v)) (dkeys ev)) = Some (prior b v)).
  { clear - Hv. induction (dkeys ev) as [|w l IH]; [contradiction|]. cbn. destruct (String.eqb_spec v w) as [->|N]; [reflexivity|]. apply IH. destruct Hv; [congruence|assumption]. }
  rewrite D2 in D. inversion D; subst. unfold prior. now rewrite map_length.
Qed.

(** ** Scaled and constant weights *)
Definition scales (ev ev' : evidence) : Prop := exists c, (0 < c)%Qc /\ forall s, In s (states (bvars b)) -> weight b ev' s = (c * weight b ev s)%Qc.

Lemma mass_scaled ev ev' : scales ev ev' -> exists c, (0 < c)%Qc /\ forall q, mass b ev' q = (c * mass b ev q)%Qc.
Proof.
  intros (c & C & H). exists c. split; [exact C|]. intros q. unfold mass. rewrite (map_ext_in (weight b ev') (fun s => (c * weight b ev s)%Qc)).
  - induction (filter _ _) as [|s l IH]; cbn [map qsum fold_right]; [unfold qsum; cbn; ring|]. unfold qsum in *. cbn [fold_right map]. rewrite IH. ring.
  - intros s I. apply filter_In in I as [I _]. now apply H.
Qed.

Lemma posterior_scaled ev ev' q : scales ev ev' -> posterior b ev' q = posterior b ev q.
Proof.
  intros S. destruct (mass_scaled ev ev' S) as (c & C & H). unfold posterior. rewrite !H.
  assert (CN : c <> 0%Qc) by (intros ->; now apply Qc_lt_irrefl in C).
  destruct (qeqb (mass b ev []) 0%Qc) eqn:E.
  - apply qeqb_true in E. rewrite E, Qcmult_0_r. reflexivity.
  - apply qeqb_false in E. destruct (qeqb (c * mass b ev []) 0%Qc) eqn:F.
    + apply qeqb_true in F. apply Qcmult_integral in F. tauto.
    + field. tauto.
Qed.

Lemma scales_nodes ev ev' : (forall n, In n (bnodes b) -> exists c, (0 < c)%Qc /\ forall s, In s (states (bvars b)) ->
    evidence_weight ev' n s = (c * evidence_weight ev n s)%Qc) -> scales ev ev'.
Proof.
  intros H. assert (P : forall ns, incl ns (bnodes b) -> exists c, (0 < c)%Qc /\ forall s, In s (states (bvars b)) ->
    qprod (map (fun n => evidence_weight ev' n s) ns) = (c * qprod (map (fun n => evidence_weight ev n s) ns))%Qc).
  { induction ns as [|n ns IH]; intros I; [exists 1%Qc; split; [reflexivity|intros; unfold qprod; cbn; ring]|].
    destruct IH as (c & C & E); [intros m M; apply I; now right|]. destruct (H n) as (d & D & F); [apply I; now left|].
    exists (d * c)%Qc. split; [now apply Qcmult_pos|]. intros s S. unfold qprod in *. cbn [map fold_right]. rewrite (E s S), (F s S). ring. }
  destruct (P (bnodes b) (incl_refl _)) as (c & C & E). exists c. split; [exact C|]. intros s S. unfold weight. rewrite (E s S). ring.
Qed.

Lemma rescaled_dget ev ev' v : rescaled ev ev' -> dget v ev' = dget v ev \/
  exists c q, (0 < c)%Qc /\ dget v ev = Some (Soft q) /\ dget v ev' = Some (Soft (map (Qcmult c) q)).
Proof.
  induction 1 as [|w e ev ev' R IH|w c q ev ev' C R IH]; [now left|..]; cbn [dget]; destruct (String.eqb_spec v w) as [->|N]; auto. right. eauto.
Qed.

Lemma rescaled_keys ev ev' : rescaled ev ev' -> dkeys ev' = dkeys ev.
Proof. unfold dkeys. induction 1; cbn [map fst]; congruence. Qed.

Lemma rescaled_scales ev ev' : rescaled ev ev' -> scales ev ev'.
Proof.
  intros R. apply scales_nodes. intros n _. unfold evidence_weight. destruct (rescaled_dget ev ev' (dn_name n) R) as [->|(c & q & C & E1 & E2)].
  - exists 1%Qc. split; [reflexivity|]. intros s _. ring.
  - exists c. split; [exact C|]. intros s _. rewrite E1, E2. rewrite <- (Qcmult_0_r c) at 1. apply (map_nth (Qcmult c)).
Qed.

Lemma rescaled_ok ev ev' : rescaled ev ev' -> ev_ok b ev -> ev_ok b ev'.
Proof.
  intros R [ND H]. split; [now rewrite (rescaled_keys _ _ R)|]. clear ND. induction R as [|w e ev ev' R IH|w c q ev ev' C R IH]; [exact H|..].
  - intros v f [E|I] N; [inversion E; subst; apply (H v f); [now left|exact N]|]. apply IH; [intros u g J; apply H; now right|exact I|exact N].
  - intros v f [E|I] N.
    + inversion E; subst. destruct (H v (Soft q) (or_introl eq_refl) N) as [L P]. split; [now rewrite map_length|].
      apply Forall_forall. intros x X. apply in_map_iff in X as (y & <- & Y). apply Qcmult_nonneg; [now apply Qclt_le_weak|]. rewrite Forall_forall in P. now apply P.
    + apply IH; [intros u g J; apply H; now right|exact I|exact N].
Qed.

Lemma weakened_keys ev ev' : weakened b ev ev' -> incl (dkeys ev') (dkeys ev).
Proof.
  unfold dkeys. induction 1 as [|v e ev ev' W IH|v c ev ev' C W IH]; cbn [map fst]; [apply incl_refl|..].
  - intros x [->|I]; [now left|right; now apply IH].
  - intros x I. right. now apply IH.
Qed.

Lemma weakened_dget ev ev' v : NoDup (dkeys ev) -> weakened b ev ev' -> dget v ev' = dget v ev \/
  exists c, (0 < c)%Qc /\ dget v ev = Some (Soft (repeat c (length (values_of b v)))) /\ dget v ev' = None.
Proof.
  intros ND W. induction W as [|w e ev ev' W IH|w c ev ev' C W IH]; [now left|..]; apply NoDup_cons_iff in ND as [N ND]; specialize (IH ND); cbn [dget];
    destruct (String.eqb_spec v w) as [->|NE]; auto.
  right. exists c. split; [exact C|]. split; [reflexivity|]. apply dget_None. intros I. apply N. now apply (weakened_keys ev ev').
Qed.

Lemma weakened_ok ev ev' : weakened b ev ev' -> ev_ok b ev -> ev_ok b ev'.
Proof.
  intros W [ND H]. split.
  - clear H. induction W as [|w e ev ev' W IH|w c ev ev' C W IH]; [exact ND|..]; apply NoDup_cons_iff in ND as [N ND].
    + apply NoDup_cons_iff. split; [intros I; apply N; now apply (weakened_keys ev ev')|now apply IH].
    + now apply IH.
  - clear ND. induction W as [|w e ev ev' W IH|w c ev ev' C W IH]; [exact H|..].
    + intros v f [E|I] N; [inversion E; subst; apply (H v f); [now left|exact N]|]. apply IH; [intros u g J; apply H; now right|exact I|exact N].
    + apply IH. intros u g J. apply H. now right.
Qed.

Lemma state_value s n : In s (states (bvars b)) -> In n (bnodes b) -> In (look s (dn_name n)) (dn_values n).
Proof.
  intros S N. destruct (state_complete (bvars b) s) with (v := dn_name n) (l := dn_values n) as (x & E & I).
  - unfold bvars. rewrite map_map. apply WB.
  - exact S.
  - apply in_map_iff. eauto.
  - unfold look. now rewrite E.
Qed.

Lemma weakened_scales ev ev' : NoDup (dkeys ev) -> weakened b ev ev' -> scales ev' ev.
Proof.
  intros ND W. apply scales_nodes. intros n N. unfold evidence_weight. destruct (weakened_dget ev ev' (dn_name n) ND W) as [->|(c & C & E1 & E2)].
  - exists 1%Qc. split; [reflexivity|]. intros s _. ring.
  - exists c. split; [exact C|]. intros s S. rewrite E1, E2. rewrite (values_of_node b WB n N). rewrite Qcmult_1_r.
    assert (L : forall i k (d : Qc), i < k -> nth i (repeat c k) d = c) by (clear; induction i; intros [|k] d H; [lia|reflexivity|lia|apply IHi; lia]).
    apply L. rewrite position_idx. apply idx_lt. now apply state_value.
Qed.
End B.
