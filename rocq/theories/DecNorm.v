(** In an acyclic network with normalised tables the probabilities sum to one,
    also when some variables are set from outside. *)
From Verif Require Import Base BaseFacts NDArray NDArrayFacts SumCalc Factor FactorFacts Exact Spec SpecFacts MCSpec MCFacts.

Section Norm.
Variable b : bn.
Hypothesis WB : wf_bn b.
Variable order : list string.
Hypothesis TO : topological b order.
Notation dom := (values_of b).
Notation card := (card dom).

Definition table (u : string) (a : asg) : Qc :=
  match find (fun n => String.eqb u (dn_name n)) (bnodes b) with Some n => feval (from_node n) a | None => 1%Qc end.

Lemma table_node n a : In n (bnodes b) -> table (dn_name n) a = feval (from_node n) a.
Proof. intros H. unfold table. rewrite (find_node b WB _ n H eq_refl). reflexivity. Qed.

Lemma column_state n a : In n (bnodes b) -> inrange card (bnames b) a ->
  bigsum (card (dn_name n)) (fun i => feval (from_node n) (upd a (dn_name n) i)) = qsum (map (fun x => entry n ((dn_name n, x) :: state_of (bvars b) a)) (dn_values n)).
Proof.
  intros H R. rewrite (qsum_list_nth (dn_values n) "").
  assert (IV : forall v, In v (map fst ((dn_name n, dn_values n) :: dn_parents n)) -> In v (bnames b)).
  { intros v [<-|X]; [apply (in_map dn_name), H|]. apply in_map_iff in X as ((p & l) & <- & Hp). eapply (parent_dom b WB); eassumption. }
  unfold FactorFacts.card. rewrite (values_of_node b WB n H). apply bigsum_ext. intros i Hi.
  assert (R' : inrange card (bnames b) (upd a (dn_name n) i)).
  { intros u Hu. destruct (string_dec u (dn_name n)) as [->|N]; [rewrite upd_eq; unfold FactorFacts.card; rewrite (values_of_node b WB n H); exact Hi|].
    rewrite upd_neq by exact N. apply R, Hu. }
  rewrite <- (entry_state b WB n _ H R'). unfold entry. f_equal. apply map_ext_in. intros (u & l) Hu. cbn [fst snd]. f_equal.
  assert (Iu : In u (bnames b)) by (apply IV; exact (in_map fst _ _ Hu)).
  assert (L : forall c, look (state_of (bvars b) c) u = nth (c u) (dom u) "").
  { intros c. apply look_state_of; [rewrite bnames_bvars; apply WB|apply (bvars_in b WB), Iu]. }
  rewrite L. unfold look at 1. cbn [dget]. destruct (String.eqb_spec u (dn_name n)) as [->|N].
  - rewrite upd_eq, (values_of_node b WB n H). reflexivity.
  - rewrite upd_neq by exact N. change (nth (a u) (dom u) "" = look (state_of (bvars b) a) u). rewrite L. reflexivity.
Qed.

Lemma column_sum n a : In n (bnodes b) -> inrange card (bnames b) a ->
  (forall s, qsum (map (fun x => entry n ((dn_name n, x) :: s)) (dn_values n)) = 1%Qc) ->
  bigsum (card (dn_name n)) (fun i => feval (from_node n) (upd a (dn_name n) i)) = 1%Qc.
Proof. intros H R S. rewrite (column_state n a H R). apply S. Qed.

Variable fixed : list string.
Notation free l := (filter (fun v => negb (mem v fixed)) l).
Hypothesis ST : forall n s, In n (bnodes b) -> ~ In (dn_name n) fixed ->
  qsum (map (fun x => entry n ((dn_name n, x) :: s)) (dn_values n)) = 1%Qc.

Definition run_prod (l : list string) (a : asg) : Qc := qprod (map (fun u => table u a) (free l)).

Lemma table_deps v pre post : order = pre ++ v :: post -> deps (v :: pre) (table v).
Proof.
  intros E a c D. unfold table. destruct (find _ _) as [n|] eqn:F; [|reflexivity]. apply find_some in F as [H X].
  apply String.eqb_eq in X. apply feval_deps. intros u [<-|Hu]; [apply D; left; exact X|]. apply D. right.
  apply (proj2 TO pre v post n E H (eq_sym X)), Hu.
Qed.

Lemma prod_deps l : forall post, order = l ++ post -> deps l (run_prod l).
Proof.
  intros post E. unfold run_prod. apply (qprod_map_deps l table). intros u Hu. apply filter_In in Hu as [Hu _].
  apply in_split in Hu as (l1 & l2 & ->). rewrite <- app_assoc in E. cbn in E. eapply deps_incl; [|apply (table_deps u l1 _ E)].
  intros x [<-|Hx]; apply in_or_app; [right; left; reflexivity|left; exact Hx].
Qed.

Lemma order_NoDup : NoDup order. Proof. eapply Permutation_NoDup; [apply TO|apply WB]. Qed.
Lemma order_In v : In v order <-> In v (bnames b).
Proof. split; intros H; [eapply Permutation_in; [symmetry; apply TO|exact H]|eapply Permutation_in; [apply TO|exact H]]. Qed.

Lemma prefix_one l : forall post a, order = l ++ post -> inrange card (bnames b) a -> sum_over card (free l) (run_prod l) a = 1%Qc.
Proof.
  induction l as [|v l IH] using rev_ind; intros post a E R; [reflexivity|].
  rewrite <- app_assoc in E. cbn in E. unfold run_prod. rewrite !filter_app. cbn [filter]. destruct (mem v fixed) eqn:M; cbn [negb].
  - rewrite !app_nil_r. exact (IH _ a E R).
  - rewrite sum_over_app. rewrite <- (IH _ a E R). apply sum_over_ext_in. intros c Rc Ec. cbn [sum_over].
    assert (R' : inrange card (bnames b) c).
    { intros u Hu. destruct (In_dec_s u (free l)) as [X|X]; [apply Rc, X|rewrite (Ec u X); apply R, Hu]. }
    assert (NV : ~ In v l) by (assert (N := order_NoDup); rewrite E in N; apply NoDup_remove_2 in N; intros X; apply N, in_or_app; left; exact X).
    assert (Hv : In v (bnames b)) by (apply order_In; rewrite E; apply in_or_app; right; left; reflexivity).
    apply (in_bnames b) in Hv as (n & Hn & Ev).
    etransitivity; [|apply Qcmult_1_r]. rewrite <- (column_sum n c Hn R'), <- bigsum_mult_l.
    2: { intros s. apply ST; [exact Hn|]. rewrite Ev. apply mem_nIn, M. }
    rewrite Ev. apply bigsum_ext. intros i _. rewrite map_app, qprod_app. cbn [map qprod]. rewrite Qcmult_1_r. f_equal.
    + symmetry. apply (prod_deps l _ E). intros u Hu. rewrite upd_neq; [reflexivity|]. intros ->. contradiction.
    + rewrite <- Ev. apply table_node, Hn.
Qed.

Lemma filter_map_comm {A B} (f : A -> B) (P : B -> bool) l : filter P (map f l) = map f (filter (fun x => P (f x)) l).
Proof. induction l as [|x l IH]; cbn; [reflexivity|]. destruct (P (f x)); cbn; rewrite IH; reflexivity. Qed.

Lemma perm_filter {A} (P : A -> bool) l l' : Permutation l l' -> Permutation (filter P l) (filter P l').
Proof.
  induction 1 as [|x l l' H IH|x y l|l1 l2 l3 H1 IH1 H2 IH2]; cbn.
  - constructor.
  - destruct (P x); [constructor; exact IH|exact IH].
  - destruct (P x), (P y); try apply Permutation_refl. constructor.
  - eapply Permutation_trans; eassumption.
Qed.

Theorem total_one a : inrange card (bnames b) a ->
  sum_over card (others b fixed) (fun c => qprod (map (fun n => feval (from_node n) c) (filter (fun n => negb (mem (dn_name n) fixed)) (bnodes b)))) a = 1%Qc.
Proof.
  intros R. rewrite <- (prefix_one order [] a (eq_sym (app_nil_r _)) R).
  assert (P : Permutation (others b fixed) (free order)) by (apply perm_filter, TO).
  assert (X : forall c, qprod (map (fun n => feval (from_node n) c) (filter (fun n => negb (mem (dn_name n) fixed)) (bnodes b))) = run_prod order c).
  { intros c. unfold run_prod. rewrite <- (qprod_perm _ _ (Permutation_map (fun u => table u c) P)). unfold others, bnames.
    rewrite filter_map_comm, map_map. apply qprod_map_ext. intros n Hn. apply filter_In in Hn as [Hn _]. symmetry. apply table_node, Hn. }
  rewrite (sum_over_ext card _ _ (run_prod order) a X). apply sum_over_perm; [|exact P].
  eapply deps_ext, (prod_deps order []). symmetry. apply app_nil_r.
Qed.
End Norm.
