(** Consequences of exactness: equal results, distributions. *)
From Verif Require Import Base BaseFacts NDArray NDArrayFacts SumCalc Factor FactorFacts Exact Spec SpecFacts
  VEProof FactorSpec FactorProofs Order OrderSpec OrderProof.

Lemma reports_equiv b f vs ws P : (forall v, In v vs <-> In v ws) -> reports b f vs P -> reports b f ws P.
Proof.
  intros E (H1 & H2 & H3 & H4 & H5 & H6 & H7). repeat split; auto.
  - intros H. apply E, H2, H. - intros H. apply H2, E, H. - apply H4. - apply H4.
  - intros q (A & B & C). apply H7. split; [exact A|]. split; [|exact C]. intros v. rewrite B. symmetry. apply E.
Qed.

Section B.
Context {SO : SetOrder}.
Variable b : bn.
Hypothesis WB : wf_bn b.
Notation dom := (values_of b).
Notation card := (card dom).

Lemma naive_reports Q ev : nonneg_bn b -> ev_ok b ev -> incl Q (bnames b) ->
  exists r, naive_marginals b Q ev = Ok r /\ reports b r Q (posterior b ev).
Proof.
  intros NN EV I. destruct (naive_exact b WB ev EV Q NN) as (r & E & R). exists r. split; [exact E|].
  eapply reports_equiv; [|exact R]. intros v. rewrite filter_In, mem_In. split; [tauto|]. intros H; split; auto.
Qed.

Lemma reports_wf f vs P : reports b f vs P -> NoDup (dkeys (fvals f)) -> wf_factor dom f.
Proof. intros (H1 & H2 & H3 & H4 & H5 & H6 & _) K. split; auto. Qed.

(** A result that reports the posterior is a probability distribution. *)
Lemma reports_distribution f Q ev : nonneg_bn b -> ev_ok b ev -> NoDup Q -> incl Q (bnames b) ->
  reports b f Q (posterior b ev) ->
  Forall (fun x => 0 <= x)%Qc (data (pot f)) /\
  (mass b ev [] <> 0%Qc -> qsum (data (pot f)) = 1%Qc) /\
  (mass b ev [] = 0%Qc -> Forall (fun x => x = 0%Qc) (data (pot f))).
Proof.
  intros NN EV ND I R. pose (f' := mkF (pot f) (vorder f) (map (fun v => (v, dom v)) (vorder f))).
  assert (R0 := R). destruct R0 as (H1 & H2 & H3 & H4 & H5 & H6 & H7).
  assert (K' : dkeys (fvals f') = vorder f) by (unfold dkeys; cbn; rewrite map_map; apply map_id).
  assert (V' : forall v, In v (vorder f) -> dget v (fvals f') = Some (dom v)).
  { intros v Hv. apply In_dget; [rewrite K'; exact H1|]. cbn. apply in_map_iff. eauto. }
  assert (W : wf_factor dom f').
  { split; auto; [rewrite K'; exact H1|]. intros v. rewrite K'. tauto. }
  assert (VI : forall v, In v (vorder f) -> In v (bnames b)) by (intros v Hv; apply I, H2, Hv).
  assert (P' : forall a, inrange card (vorder f) a -> feval f' a = posterior b ev (inst_of b (vorder f) a)).
  { intros a Ra. destruct (inst_of_inst b WB (vorder f) a H1 VI Ra) as [Hi Ha].
    assert (Hq : is_inst b Q (inst_of b (vorder f) a)).
    { destruct Hi as (A & B & C). split; [exact A|]. split; [|exact C]. intros v. rewrite B. apply H2. }
    rewrite <- (H7 _ Hq).
    transitivity (potential_at f' (inst_of b (vorder f) a)).
    - rewrite (potential_at_feval b f' _ W). apply feval_deps. intros v Hv. symmetry. apply Ha, Hv.
    - unfold potential_at; cbn [f' pot vorder]. f_equal. apply map_ext_in. intros v Hv.
      rewrite (V' v Hv), (H3 v Hv). reflexivity. }
  assert (DA : forall x, In x (data (pot f)) -> exists a, inrange card (vorder f) a /\ x = feval f' a).
  { intros x Hx. rewrite (data_aget (pot f)) in Hx by exact H6. apply in_map_iff in Hx as (ix & <- & Hx).
    apply In_indices in Hx. exists (asg_of (vorder f) ix). split.
    - apply inb_asg_of. cbn in H5. rewrite H5 in Hx. exact Hx.
    - apply (feval_arr dom f' ix W). exact Hx. }
  assert (MN := mass_nonneg b WB ev [] NN EV).
  split; [|split].
  - apply Forall_forall. intros x Hx. destruct (DA x Hx) as (a & Ra & ->). rewrite P' by exact Ra.
    unfold posterior. destruct (qeqb _ _) eqn:Z; [apply Qcle_refl|]. apply qeqb_false in Z.
    apply Qcdiv_nonneg; [apply mass_nonneg; assumption|apply Qc_nonneg_neq0_pos; assumption].
  - intros NZ. change (qsum (data (pot f))) with (asum (pot f')). rewrite (asum_total dom f' W). unfold ftotal.
    change (vorder f') with (vorder f).
    assert (EQ : forall a, inrange card (vorder f) a ->
       feval f' a = (/ mass b ev [] * sum_over card (others b (vorder f)) (iweight b ev) a)%Qc).
    { intros a Ra. rewrite P' by exact Ra. unfold posterior.
      assert (Z := NZ). apply qeqb_false in Z. rewrite Z.
      destruct (inst_of_inst b WB (vorder f) a H1 VI Ra) as [Hi Ha].
      rewrite (mass_sum b WB ev _ (vorder f) EV Hi H1 VI). unfold Qcdiv. rewrite Qcmult_comm. f_equal.
      apply (sum_over_deps card (bnames b)); [apply iweight_deps; assumption|].
      intros v Hv Nv. apply Ha. rewrite others_In in Nv. destruct (In_dec_s v (vorder f)); tauto. }
    rewrite (sum_over_ext_in card (vorder f) _ _ _ (fun a Ra _ => EQ a Ra)).
    rewrite sum_over_const_l, <- sum_over_app.
    rewrite <- (sum_over_perm card _ _ _ (iweight_ext b WB ev) (others_split b WB (vorder f) H1 VI)).
    rewrite <- (mass_total b WB ev (fun _ => 0) EV). rewrite Qcmult_comm. apply Qcmult_inv_r, NZ.
  - intros Z. apply Forall_forall. intros x Hx. destruct (DA x Hx) as (a & Ra & ->). rewrite P' by exact Ra.
    unfold posterior. apply qeqb_true in Z. rewrite Z. reflexivity.
Qed.

Lemma bucket_any_order Q ev o : nonneg_bn b -> ev_ok b ev -> incl (dkeys ev) (bnames b) ->
  NoDup Q -> incl Q (bnames b) -> (o = None \/ o = Some [] -> wf_graph b) ->
  (forall l, o = Some l -> l <> [] -> Permutation (bnames b) l) ->
  exists r, bucket_query b Q ev o = Ok r /\ reports b r Q (posterior b ev).
Proof.
  intros NN EV K ND I G P. unfold bucket_query, order_or_default.
  assert (H : exists l, (match o with Some ((_ :: _) as l) => Ok l | _ => get_min_degree_order b end) = Ok l /\ Permutation (bnames b) l).
  { destruct o as [[|x l]|].
    - destruct (min_degree_greedy b) as (r & E & Pr & _); [apply G; tauto|eauto].
    - exists (x :: l). split; [reflexivity|]. apply P; [reflexivity|discriminate].
    - destruct (min_degree_greedy b) as (r & E & Pr & _); [apply G; tauto|eauto]. }
  destruct H as (l & E & Pl). rewrite E. cbn [rbind].
  destruct (bucket_exact b WB ev EV Q l NN ND I K Pl) as (r & E2 & R). rewrite E2. exists r. split; [reflexivity|exact R].
Qed.
End B.
