(** Desired posteriors in rounded arithmetic: the same program, any history, and what the likelihoods mean. *)
From Coq Require Import Field.
From Verif Require Import Base BaseFacts NDArray NDArrayFacts SumCalc Factor FactorFacts Exact Spec SpecFacts VEProof VEProof2 Order OrderSpec JoinTree HuginPure Hugin JTProof JTProof2 TreeSpec
  JTTop EvForms Instances JTJunction JTHistory Rounded RoundedSpec RoundedProof RoundedTop RoundedTree RoundedTreeSpec RoundedTreeProof RoundedTreeTop RoundedSoft RoundedSoftSpec RoundedSoftProof.

Section Same.
Context {SO : SetOrder}.
Notation exact_ratio := (soft_ratio_by Qcdiv Qcmult).

Lemma ratio_same q old : exact_ratio q old = soft_ratio q old.
Proof. reflexivity. Qed.

Lemma as_evidence_same v values e old : as_evidence_by exact_ratio v values e old = as_evidence v values e old.
Proof. destruct e as [x|q], old as [p|]; reflexivity. Qed.

Lemma olds_same vs t : old_marginals_by fmul marginalize1 finvert normalize vs t = old_marginals vs t.
Proof.
  revert t. induction vs as [|v vs IH]; intros t; [reflexivity|]. cbn [old_marginals_by old_marginals]. rewrite (proj2 (proj2 (proj2 (proj2 tree_by_exact)))).
  destruct (tmarginals t [v]) as [t1 [f|e]]; [|reflexivity]. rewrite IH. reflexivity.
Qed.

Lemma add_same b d p t : add_posterior_by fmul exact_ratio b d p t = add_tree_evidence b d p t.
Proof.
  unfold add_posterior_by, add_tree_evidence. cbv zeta. destruct (get_node b (fst p)) as [n|]; cbn [rbind]; [|reflexivity]. rewrite as_evidence_same.
  destruct (as_evidence _ _ _ _); cbn [rbind]; [|reflexivity]. rewrite assign_evidence_same. reflexivity.
Qed.

Theorem posteriors_by_exact b ev t : set_posteriors_by fmul marginalize1 finvert normalize exact_ratio b ev t = set_evidence b ev true t.
Proof.
  unfold set_posteriors_by, set_evidence. rewrite reset_same. destruct (reset_factors b t) as [t1 [u|e]]; [|reflexivity].
  rewrite calculate_same. destruct (calculate_messages t1) as [t2 [u2|e]]; [|reflexivity]. rewrite olds_same. destruct (old_marginals (dkeys ev) t2) as [t3 [d|e]]; [|reflexivity].
  rewrite reset_same. destruct (reset_factors b t3) as [t4 [u4|e]]; [|reflexivity]. rewrite (each_same _ _ ev t4 (add_same b d)).
  destruct (each (add_tree_evidence b d) ev t4) as [t5 [u5|e]]; [|reflexivity]. apply calculate_same.
Qed.
End Same.

Section Shape.
Context {RD : Rounding} {AD : Adding} {SO : SetOrder}.

Lemma olds_skel vs t : skel (fst (old_marginals_by rmul rmarg rinvert rnormalize vs t)) = skel t.
Proof.
  revert t. induction vs as [|v vs IH]; intros t; [reflexivity|]. cbn [old_marginals_by]. assert (X := tmarginals_by_skel rmul rmarg rinvert rnormalize t [v]).
  destruct (tmarginals_by rmul rmarg rinvert rnormalize t [v]) as [t1 [f|e]]; cbn [fst] in X; [|exact X]. specialize (IH t1).
  destruct (old_marginals_by rmul rmarg rinvert rnormalize vs t1) as [t2 [d|e]]; cbn [fst] in *; congruence.
Qed.

Lemma add_posterior_skel b d p t : skel (fst (add_posterior_by rmul rounded_ratio b d p t)) = skel t.
Proof.
  unfold add_posterior_by. cbv zeta. destruct (get_node b (fst p)); cbn [rbind]; [|reflexivity]. destruct (as_evidence_by _ _ _ _ _); cbn [rbind]; [|reflexivity].
  destruct (assign_evidence_by _ _ _ _) as [ns|] eqn:A; [|reflexivity]. cbn [fst]. apply skel_of_vars. exact (assign_evidence_by_vars _ _ _ _ _ A).
Qed.

Lemma posteriors_skel b ev t : skel (fst (rounded_posteriors b ev t)) = skel t.
Proof.
  unfold rounded_posteriors, set_posteriors_by. assert (X1 := reset_by_skel rmul b t). destruct (reset_factors_by rmul b t) as [t1 [u|e]]; cbn [fst] in X1; [|exact X1].
  assert (X2 := calculate_by_skel rmul rmarg rinvert t1). destruct (calculate_messages_by rmul rmarg rinvert t1) as [t2 [u2|e]]; cbn [fst] in X2; [|cbn [fst]; congruence].
  assert (X3 := olds_skel (dkeys ev) t2). destruct (old_marginals_by rmul rmarg rinvert rnormalize (dkeys ev) t2) as [t3 [d|e]]; cbn [fst] in X3; [|cbn [fst]; congruence].
  assert (X4 := reset_by_skel rmul b t3). destruct (reset_factors_by rmul b t3) as [t4 [u4|e]]; cbn [fst] in X4; [|cbn [fst]; congruence].
  assert (X5 := each_keeps (fun u => skel u = skel t4) (add_posterior_by rmul rounded_ratio b d) ev (fun p u H => eq_trans (add_posterior_skel b d p u) H) t4 eq_refl).
  destruct (each (add_posterior_by rmul rounded_ratio b d) ev t4) as [t5 [u5|e]]; cbn [fst] in X5; [|cbn [fst]; congruence].
  rewrite calculate_by_skel. congruence.
Qed.

Lemma used_any_ok b0 t : used_any b0 t -> exists r sv, jt_ok b0 t r sv.
Proof.
  assert (SAME : forall t t', skel t' = skel t -> (exists r sv, jt_ok b0 t r sv) -> exists r sv, jt_ok b0 t' r sv).
  { intros u u' E (r & sv & J). exists r, sv. eapply jt_ok_same; [reflexivity|symmetry; exact E|exact J]. }
  induction 1 as [order o t EO SU NN E|b ev t U IH|b ev t U IH|b t U IH|t U IH|Q t U IH].
  - apply used_ok. econstructor; eassumption.
  - eapply SAME; [|exact IH]. apply set_evidence_by_skel.
  - eapply SAME; [|exact IH]. apply posteriors_skel.
  - eapply SAME; [|exact IH]. apply reset_by_skel.
  - eapply SAME; [|exact IH]. apply calculate_by_skel.
  - eapply SAME; [|exact IH]. apply tmarginals_by_skel.
Qed.

Lemma used_any_size b0 t : used_any b0 t -> length (tree_keys t) <= length (bnodes b0).
Proof.
  intros U. assert (X : exists t', used b0 t' /\ skel t = skel t').
  { induction U as [order o t EO SU NN E|b ev t U IH|b ev t U IH|b t U IH|t U IH|Q t U IH].
    - exists t. split; [econstructor; eassumption|reflexivity].
    - destruct IH as (t' & U' & E). exists t'. split; [exact U'|]. rewrite <- E. apply set_evidence_by_skel.
    - destruct IH as (t' & U' & E). exists t'. split; [exact U'|]. rewrite <- E. apply posteriors_skel.
    - destruct IH as (t' & U' & E). exists t'. split; [exact U'|]. rewrite <- E. apply reset_by_skel.
    - destruct IH as (t' & U' & E). exists t'. split; [exact U'|]. rewrite <- E. apply calculate_by_skel.
    - destruct IH as (t' & U' & E). exists t'. split; [exact U'|]. rewrite <- E. apply tmarginals_by_skel. }
  destruct X as (t' & U' & E). assert (S := used_size b0 t' U'). unfold tree_keys in *. rewrite (skel_keys _ _ E). exact S.
Qed.
End Shape.

(** The likelihoods are determined up to a common factor wherever they matter. *)
Section Meaning.
Variable b : bn.
Hypothesis WB : wf_bn b.
Hypothesis NN : nonneg_bn b.
Notation dom := (values_of b).

Lemma proportional_posterior ev1 ev2 k q : k <> 0%Qc -> (forall s, In s (states (bvars b)) -> weight b ev1 s = (k * weight b ev2 s)%Qc) -> posterior b ev1 q = posterior b ev2 q.
Proof.
  intros K H. assert (M : forall q, mass b ev1 q = (k * mass b ev2 q)%Qc).
  { intros q'. unfold mass. rewrite <- qsum_mult_l. apply qsum_map_ext. intros s Hs. apply filter_In in Hs as [Hs _]. apply H, Hs. }
  unfold posterior. rewrite !M. destruct (qeqb (mass b ev2 []) 0%Qc) eqn:Z.
  - apply qeqb_true in Z. rewrite Z. rewrite (proj2 (qeqb_true _ _)) by ring. reflexivity.
  - apply qeqb_false in Z. rewrite (proj2 (qeqb_false _ _)) by (intros X; apply Qcmult_integral in X as [X|X]; contradiction). field. split; assumption.
Qed.

Lemma meant_item v ev ev1 ev2 : meant b ev ev1 -> meant b ev ev2 ->
  dget v ev1 = dget v ev2 \/ exists q l1 l2, dget v ev1 = Some (Soft l1) /\ dget v ev2 = Some (Soft l2) /\ moves (prior b v) l1 q /\ moves (prior b v) l2 q.
Proof.
  intros M1. revert ev2. induction M1 as [|w x ev ev1 M1 IH|w q l ev ev1 MV M1 IH]; intros ev2 M2; inversion M2; subst; cbn [dget].
  - left; reflexivity.
  - destruct (String.eqb v w); [left; reflexivity|apply IH; assumption].
  - destruct (String.eqb_spec v w) as [->|]; [|apply IH; assumption]. right. exists q, l, l0. auto.
Qed.

Lemma prior_at v x : In v (bnames b) -> In x (dom v) -> nth (position x (dom v)) (prior b v) 0%Qc = posterior b [] [(v, x)].
Proof.
  intros Hv Hx. rewrite position_idx. unfold prior. rewrite (nth_indep _ 0%Qc (posterior b [] [(v, "")])) by (rewrite map_length; apply idx_lt, Hx).
  rewrite (map_nth (fun x => posterior b [] [(v, x)])), nth_idx by exact Hx. reflexivity.
Qed.
Lemma weight_nil s : weight b [] s = joint b s.
Proof.
  unfold weight. assert (E : qprod (map (fun n => evidence_weight [] n s) (bnodes b)) = 1%Qc).
  { induction (bnodes b) as [|n ns IH]; [reflexivity|]. cbn [map qprod]. rewrite IH. unfold evidence_weight. cbn [dget]. ring. }
  rewrite E. ring.
Qed.

Lemma weight_nonneg ev s : ev_ok b ev -> (0 <= weight b ev s)%Qc.
Proof.
  intros EV. unfold weight, joint. apply Qcmult_nonneg; apply qprod_nonneg; apply Forall_forall; intros x Hx; apply in_map_iff in Hx as (n & <- & Hn).
  - unfold entry. apply nth_Forall_nonneg, NN, Hn.
  - unfold evidence_weight. destruct (dget (dn_name n) ev) as [[y|p]|] eqn:E; [|apply nth_Forall_nonneg|discriminate].
    + destruct (String.eqb _ _); [discriminate|apply Qcle_refl].
    + destruct EV as [_ EV]. apply dget_In in E. apply (EV _ _ E). apply in_map, Hn.
Qed.

Lemma filter_one v l : In v l -> NoDup l -> filter (fun w => mem w [v]) l = [v].
Proof.
  assert (X : forall l, ~ In v l -> filter (fun w => mem w [v]) l = []).
  { clear l. induction l as [|w l IH]; intros N; [reflexivity|]. cbn. destruct (String.eqb_spec w v) as [->|]; [destruct N; left; reflexivity|]. apply IH. intros H. apply N. right; exact H. }
  intros Hv ND. induction ND as [|w l N ND IH]; [contradiction|]. cbn. destruct (String.eqb_spec w v) as [->|NE]; cbn.
  - rewrite X by exact N. reflexivity.
  - apply IH. destruct Hv; [congruence|assumption].
Qed.

(** States whose value for [v] has prior zero have probability zero. *)
Lemma no_prior_no_joint v s : In v (bnames b) -> In s (states (bvars b)) -> posterior b [] [(v, look s v)] = 0%Qc -> joint b s = 0%Qc.
Proof.
  intros Hv Hs Z. assert (M : mass b [] [(v, look s v)] = 0%Qc).
  { unfold posterior in Z. destruct (qeqb (mass b [] []) 0%Qc) eqn:Q.
    - apply qeqb_true in Q. apply (mass_zero b NN [] _ (ev_nil b) Q).
    - apply qeqb_false in Q. replace (mass b [] [(v, look s v)]) with (mass b [] [(v, look s v)] / mass b [] [] * mass b [] [])%Qc by (field; exact Q). rewrite Z. ring. }
  unfold mass in M. assert (A := qsum_nonneg_zero (map (weight b []) (filter (agrees [(v, look s v)]) (states (bvars b))))).
  rewrite <- weight_nil. specialize (A ltac:(apply Forall_forall; intros x Hx; apply in_map_iff in Hx as (s' & <- & _); apply weight_nonneg, ev_nil) M). rewrite Forall_forall in A. apply A, in_map, filter_In. split; [exact Hs|]. cbn. rewrite eqb_refl_s. reflexivity.
Qed.

Lemma item_proportional ev ev1 ev2 n : meant b ev ev1 -> meant b ev ev2 -> In n (bnodes b) ->
  exists k, k <> 0%Qc /\ forall s, In s (states (bvars b)) -> joint b s <> 0%Qc -> evidence_weight ev1 n s = (k * evidence_weight ev2 n s)%Qc.
Proof.
  intros M1 M2 Hn. assert (Hv : In (dn_name n) (bnames b)) by (apply in_map, Hn).
  destruct (meant_item (dn_name n) ev ev1 ev2 M1 M2) as [E|(q & l1 & l2 & E1 & E2 & (A1 & A2 & A3 & c1 & C1 & H1) & (B1 & B2 & B3 & c2 & C2 & H2))].
  - exists 1%Qc. split; [discriminate|]. intros s _ _. unfold evidence_weight. rewrite E. ring.
  - exists (c1 / c2)%Qc. split.
    + intros Z. apply C1. replace c1 with (c1 / c2 * c2)%Qc by (field; exact C2). rewrite Z. ring.
    + intros s Hs NZ. unfold evidence_weight. rewrite E1, E2. assert (Hx : In (look s (dn_name n)) (dom (dn_name n))) by (rewrite (values_of_node b WB n Hn); apply (state_value b WB); assumption).
      rewrite <- (values_of_node b WB n Hn). assert (P := prior_at _ _ Hv Hx). assert (Li : position (look s (dn_name n)) (dom (dn_name n)) < length (prior b (dn_name n))).
      { unfold prior. rewrite map_length, position_idx. apply idx_lt, Hx. }
      specialize (H1 _ Li). specialize (H2 _ Li). rewrite P in H1, H2. set (i := position (look s (dn_name n)) (dom (dn_name n))) in *.
      assert (PN : posterior b [] [(dn_name n, look s (dn_name n))] <> 0%Qc) by (intros Z; apply NZ, (no_prior_no_joint (dn_name n)); assumption).
      set (p := posterior b [] [(dn_name n, look s (dn_name n))]) in *. replace (nth i l1 0%Qc) with ((p * nth i l1 0) / p)%Qc by (field; exact PN).
      replace (nth i l2 0%Qc) with ((p * nth i l2 0) / p)%Qc by (field; exact PN). rewrite H1, H2. field. split; assumption.
Qed.

Theorem meant_posterior ev ev1 ev2 q : meant b ev ev1 -> meant b ev ev2 -> posterior b ev1 q = posterior b ev2 q.
Proof.
  intros M1 M2. assert (X : forall ns, incl ns (bnodes b) -> exists k, k <> 0%Qc /\ forall s, In s (states (bvars b)) -> joint b s <> 0%Qc ->
    qprod (map (fun n => evidence_weight ev1 n s) ns) = (k * qprod (map (fun n => evidence_weight ev2 n s) ns))%Qc).
  { induction ns as [|n ns IH]; intros I.
    - exists 1%Qc. split; [discriminate|]. intros s _ _. cbn. ring.
    - destruct IH as (k & K & H); [intros m Hm; apply I; right; exact Hm|]. destruct (item_proportional ev ev1 ev2 n M1 M2 (I n (or_introl eq_refl))) as (k' & K' & H').
      exists (k' * k)%Qc. split; [intros Z; apply Qcmult_integral in Z as [Z|Z]; contradiction|]. intros s Hs NZ. cbn [map qprod]. rewrite (H s Hs NZ), (H' s Hs NZ). ring. }
  destruct (X (bnodes b) (incl_refl _)) as (k & K & H). apply (proportional_posterior _ _ k); [exact K|]. intros s Hs. unfold weight.
  destruct (Qc_eq_dec (joint b s) 0) as [Z|Z]; [rewrite Z; ring|]. rewrite (H s Hs Z). ring.
Qed.

(** One variable: its posterior is the desired one, normalised. *)
Lemma desired_alone v q ev' x : In v (bnames b) -> In x (dom v) -> qsum q <> 0%Qc -> meant b [(v, Soft q)] ev' ->
  posterior b ev' [(v, x)] = (nth (position x (dom v)) q 0 / qsum q)%Qc.
Proof.
  intros Hv Hx S M. inversion M as [| |? ? l ? ? MV M']; subst. inversion M'; subst.
  set (q' := map (fun y => (y / qsum q)%Qc) q). assert (MV' : moves (prior b v) l q').
  { destruct MV as (L1 & L2 & L3 & c & C & H). split; [exact L1|]. split; [unfold q'; rewrite map_length; exact L2|]. split; [exact L3|]. exists (c * qsum q)%Qc.
    split; [intros Z; apply Qcmult_integral in Z as [Z|Z]; contradiction|]. intros i Hi. rewrite H by exact Hi. unfold q'. rewrite (nth_indep (map (fun y => (y / qsum q)%Qc) q) 0%Qc (0 / qsum q)%Qc) by (rewrite map_length; lia).
    rewrite (map_nth (fun y => (y / qsum q)%Qc)). field. exact S. }
  assert (SQ : qsum q' = 1%Qc).
  { unfold q'. replace (map (fun y => y / qsum q)%Qc q) with (map (fun y => / qsum q * y)%Qc q) by (apply map_ext; intros; field; exact S).
    rewrite (qsum_mult_l (/ qsum q) (fun y => y) q). rewrite map_id. field. exact S. }
  assert (EV : ev_ok b [(v, Soft l)]).
  { destruct MV as (L1 & _ & L3 & _). split; [cbn; constructor; [tauto|constructor]|]. intros w e [E|[]] _. inversion E; subst. split; [rewrite L1; apply map_length|exact L3]. }
  destruct (naive_exact (SO := listing_order) b WB [(v, Soft l)] EV [v] NN) as (f & _ & R). rewrite filter_one in R by (exact Hv || apply WB).
  rewrite (posterior_desired b WB NN v l q' x f Hv Hx MV' SQ R). unfold q'. rewrite (nth_indep (map (fun y => (y / qsum q)%Qc) q) 0%Qc (0 / qsum q)%Qc); [apply (map_nth (fun y => (y / qsum q)%Qc))|].
  destruct MV as (_ & L2 & _). rewrite map_length, L2. unfold prior. rewrite map_length, position_idx. apply idx_lt, Hx.
Qed.
End Meaning.
