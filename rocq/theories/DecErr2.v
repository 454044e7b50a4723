(** Which calls of the decision methods raise: the elimination. *)
From Verif Require Import Base BaseFacts NDArray NDArrayFacts SumCalc Factor FactorFacts FactorSpec FactorProofs Exact Spec SpecFacts Node Network NetSpec NetFacts NetInv
  NetView NetTable MCSpec Decision DecSpec DecInv DecVE DecView DecNorm DecFacts DecOpt DecElim DecErrSpec DecErr.
From Coq Require Import Field.

Lemma mapM_pairs {A B} (f : A -> res B) l : forall r, mapM f l = Ok r -> Forall2 (fun x y => f x = Ok y) l r.
Proof.
  induction l as [|x l IH]; cbn; intros r E; [injection E as <-; constructor|].
  destruct (f x) as [y|] eqn:Ex; [|discriminate]. cbn in E. destruct (mapM f l) as [ys|]; [|discriminate]. cbn in E. injection E as <-.
  constructor; [exact Ex|apply IH; reflexivity].
Qed.

Lemma Forall2_flip' {A B} (P : A -> B -> Prop) l m : Forall2 P l m -> Forall2 (fun y x => P x y) m l.
Proof. induction 1; constructor; assumption. Qed.

Lemma Forall2_left {A B} (P : A -> B -> Prop) l m x : Forall2 P l m -> In x l -> exists y, In y m /\ P x y.
Proof.
  induction 1 as [|a b l m H _ IH]; intros Hx; [destruct Hx|]. destruct Hx as [<-|Hx]; [exists b; split; [left; reflexivity|exact H]|].
  destruct (IH Hx) as (y & Hy & Py). exists y. split; [right; exact Hy|exact Py].
Qed.
Lemma Forall2_right {A B} (P : A -> B -> Prop) l m y : Forall2 P l m -> In y m -> exists x, In x l /\ P x y.
Proof. intros F Hy. destruct (Forall2_left _ _ _ y (Forall2_flip' P l m F) Hy) as (x & Hx & Px). exists x. auto. Qed.

Section Net.
Variable w : dworld.
Hypothesis I : dinv w.
Hypothesis T : dtidy w.
Hypothesis NN : nonneg_bn (dbn w).
Notation dom := (values_of (dbn w)).
Notation vars := (bnames (dbn w)).
Notation card := (card dom).
Notation nd p := (deref (dheap w) (snd p)).

Definition jrel (p : string * oid) (j : jfactor) : Prop := joint_factor (dheap w) (nd p) = Ok j.

Lemma look_holds p : In p (dlook w) -> dholds w (fst p) (snd p) (nd p).
Proof.
  destruct p as (v & i). intros Hp. cbn [fst snd]. apply In_dget in Hp; [|apply I]. destruct (di_named w I v i Hp) as (n & A & _).
  rewrite (deref_ok _ _ _ A). split; assumption.
Qed.

Lemma factor_pairs js : net_factors w = Ok js -> Forall2 jrel (dlook w) js.
Proof.
  intros E. unfold net_factors in E. apply mapM_pairs in E. assert (S : incl (dlook w) (dlook w)) by apply incl_refl.
  revert S E. generalize (dlook w) at 1 3 4. intros l S E. induction E as [|p j l js H _ IH]; constructor.
  - assert (D := look_holds p (S p (or_introl eq_refl))). unfold hget in H. rewrite (proj2 D) in H. exact H.
  - apply IH. intros x Hx. apply S. right; exact Hx.
Qed.

Lemma jrel_spec p j : In p (dlook w) -> jrel p j ->
  (forall u, In u (vorder (fst j)) <-> In u (mentions (nd p))) /\
  (forall a, inrange card vars a -> feval (fst j) a = pterm w (nd p) a) /\ wf_jf dom vars j.
Proof.
  intros Hp J. assert (D := look_holds p Hp). destruct (joint_factor_ok w I T NN _ _ _ D) as (j' & E & W & O & V).
  unfold jrel in J. assert (j' = j) by congruence. subst j'. split; [|split; [intros a R; apply V, R|exact W]].
  intros u. rewrite O. unfold mentions. rewrite in_app_iff. destruct (is_utility (nd p)).
  - split; [intros [[X _]|X]; [discriminate|right; exact X]|intros [[]|X]; right; exact X].
  - rewrite (dnamed w I _ _ _ D). cbn [In]. split; intros [X|X]; [left; left; symmetry; apply X|right; exact X|left; split; [reflexivity|destruct X as [X|[]]; symmetry; exact X]|right; exact X].
Qed.

Lemma PP_pairs L C a : incl L (dlook w) -> Forall2 jrel L C -> inrange card vars a -> PP C a = qprod (map (fun p => pterm w (nd p) a) L).
Proof.
  intros S F R. induction F as [|p j L C H _ IH]; [reflexivity|]. unfold PP. cbn [map qprod]. fold (PP C a).
  rewrite IH by (intros x Hx; apply S; right; exact Hx). f_equal. apply (jrel_spec p j (S p (or_introl eq_refl)) H), R.
Qed.

Definition kprod (K : list string) (a : asg) : Qc :=
  qprod (map (fun n => feval (from_node n) a) (filter (fun n => mem (dn_name n) K) (bnodes (dbn w)))).

Lemma kprod_eq K a : kprod K a =
  qprod (map (fun p => pterm w (nd p) a) (filter (fun p => negb (is_utility (nd p)) && mem (fst p) K) (dlook w))).
Proof.
  unfold kprod, dbn. cbn [bnodes]. rewrite objects_old, filter_map_comm, map_map, filter_filter.
  rewrite (filter_ext_in (fun x => negb (is_utility (nd x)) && mem (dn_name (snapshot_node (dheap w) (nd x))) K)
             (fun p => negb (is_utility (nd p)) && mem (fst p) K)).
  - apply qprod_map_ext. intros p Hp. apply filter_In in Hp as [_ Hp]. apply andb_true_iff in Hp as [Hp _]. apply negb_true_iff in Hp.
    unfold pterm. rewrite Hp. reflexivity.
  - intros p Hp. cbn [snapshot_node dn_name]. rewrite (dnamed w I _ _ _ (look_holds p Hp)). reflexivity.
Qed.

Lemma kprod_part K LC LR a : Permutation (dlook w) (LC ++ LR) ->
  (forall p, In p LC -> is_utility (nd p) = false -> In (fst p) K) ->
  (forall p, In p LR -> is_utility (nd p) = false -> ~ In (fst p) K) ->
  kprod K a = qprod (map (fun p => pterm w (nd p) a) LC).
Proof.
  intros P A B. rewrite kprod_eq. rewrite (qprod_perm _ (map (fun p => pterm w (nd p) a)
    (filter (fun p => negb (is_utility (nd p)) && mem (fst p) K) (LC ++ LR)))) by (apply Permutation_map, filter_permutation, P).
  rewrite filter_app, map_app, qprod_app.
  replace (filter (fun p => negb (is_utility (nd p)) && mem (fst p) K) LR) with (@nil (string * oid)).
  2: { clear - B. induction LR as [|p L IH]; [reflexivity|]. cbn [filter]. assert (E := IH (fun q Hq => B q (or_intror Hq))).
       destruct (is_utility (nd p)) eqn:U; cbn [negb andb]; [exact E|].
       assert (M : mem (fst p) K = false) by (apply mem_nIn, (B p (or_introl eq_refl) U)). rewrite M. exact E. }
  cbn [map qprod]. rewrite Qcmult_1_r, qprod_filter. apply qprod_map_ext. intros p Hp. destruct (is_utility (nd p)) eqn:U; cbn [negb andb].
  - unfold pterm. rewrite U. reflexivity.
  - rewrite (proj2 (mem_In (fst p) K) (A p Hp U)). reflexivity.
Qed.

Lemma kprod_deps K : deps vars (kprod K).
Proof.
  apply (qprod_map_deps _ (fun n c => feval (from_node n) c)). intros n Hn b c E. apply filter_In in Hn as [Hn _]. apply feval_deps. intros v Hv.
  apply E. eapply (from_node_scope (dbn w) (dbn_wf w I T)); eassumption.
Qed.

Lemma kprod_nonneg K a : (0 <= kprod K a)%Qc.
Proof.
  apply qprod_nonneg. rewrite Forall_map. apply Forall_forall. intros n Hn. apply filter_In in Hn as [Hn _].
  unfold feval. cbn [from_node pot]. apply nth_Forall_nonneg, NN, Hn.
Qed.

Lemma weight_zero K : weight w K = 0%Qc <-> forall a, inrange card vars a -> kprod K a = 0%Qc.
Proof.
  destruct (some_range w I T) as (a0 & R0).
  assert (E : weight w K = sum_over card vars (kprod K) a0).
  { unfold weight. rewrite <- (agrees_all (states (bvars (dbn w)))).
    rewrite (mass_sum_gen (dbn w) (dbn_wf w I T) _ (kprod K) [] []).
    - rewrite others_nil. apply (sum_over_deps _ vars); [apply kprod_deps|tauto].
    - apply is_inst_nil. - constructor. - intros v [].
    - intros c R. apply qprod_map_ext. intros n Hn. apply filter_In in Hn as [Hn _]. apply (entry_state (dbn w) (dbn_wf w I T)); assumption.
    - eapply deps_ext, kprod_deps. }
  rewrite E. split.
  - intros Z a R. assert (D := kprod_deps K).
    rewrite (D a (fun u => if mem u vars then a u else a0 u)) by (intros u Hu; rewrite (proj2 (mem_In u vars) Hu); reflexivity).
    apply (sum_over_zero_terms card vars (kprod K) (deps_ext _ _ D) (wb_names _ (dbn_wf w I T)) a0).
    + intros b _ _. apply kprod_nonneg.
    + exact Z.
    + intros u Hu. rewrite (proj2 (mem_In u vars) Hu). apply R, Hu.
    + intros u Hu. rewrite (proj2 (mem_nIn u vars) Hu). reflexivity.
  - intros Z. apply sum_over_zero. intros b Rb _. apply Z, Rb.
Qed.

Section Dead.
Variable js : list jfactor.
Hypothesis EJ : net_factors w = Ok js.
Variable a0 : asg.
Hypothesis R0 : inrange card vars a0.

Lemma js_pairs j : In j js -> exists p, In p (dlook w) /\ jrel p j.
Proof. apply Forall2_right, factor_pairs, EJ. Qed.
Lemma js_wf : Forall (wf_jf dom vars) js.
Proof. apply Forall_forall. intros j Hj. destruct (js_pairs j Hj) as (p & Hp & J). apply (jrel_spec p j Hp J). Qed.

Lemma sum_null C vs : Forall (wf_jf dom vars) C -> NoDup vs -> incl vs vars -> (forall f, In f C -> incl (vorder (fst f)) vs) ->
  sum_over card vs (PP C) a0 = 0%Qc <-> forall a, inrange card vars a -> PP C a = 0%Qc.
Proof.
  intros W ND IV Sc. assert (X : ext (PP C)) by (eapply deps_ext, PP_deps, W).
  assert (RR : forall b, inrange card vs b -> (forall u, ~ In u vs -> b u = a0 u) -> inrange card vars b).
  { intros b Rb Eb u Hu. destruct (In_dec_s u vs) as [Y|Y]; [apply Rb, Y|rewrite (Eb u Y); apply R0, Hu]. }
  split.
  - intros Z a R.
    assert (E : PP C a = PP C (fun u => if mem u vs then a u else a0 u)).
    { unfold PP. apply qprod_map_ext. intros f Hf. apply feval_deps. intros u Hu. rewrite (proj2 (mem_In u vs) (Sc f Hf u Hu)). reflexivity. }
    rewrite E. apply (sum_over_zero_terms card vs (PP C) X ND a0); [|exact Z| |].
    + intros b Rb Eb. apply (PP_nonneg dom vars); [exact W|apply RR; assumption].
    + intros u Hu. rewrite (proj2 (mem_In u vs) Hu). apply R, IV, Hu.
    + intros u Hu. rewrite (proj2 (mem_nIn u vs) Hu). reflexivity.
  - intros Z. apply sum_over_zero. intros b Rb Eb. apply Z, RR; assumption.
Qed.

Lemma dead_all : dead dom js vars a0 <-> plan_sum w [] (fun _ => 1%Qc) = 0%Qc.
Proof.
  destruct (net_factors_ok w I T NN) as (js' & E' & W & C & NE & V). assert (js' = js) by congruence. subst js'.
  assert (SC : forall f, In f js -> incl (vorder (fst f)) vars) by (intros f Hf u Hu; apply C; exists f; auto).
  assert (EP : plan_sum w [] (fun _ => 1%Qc) = sum_over card vars (PP js) a0).
  { rewrite (plan_all_ix w _ (fun _ => 1%Qc) a0 I T); try (repeat intro; reflexivity).
    apply sum_over_ext_in. intros c Rc _. rewrite (proj1 (V c Rc)). ring. }
  assert (ND := wb_names _ (dbn_wf w I T)). assert (IR := incl_refl vars). rewrite EP. split.
  - intros (S1 & R & P & Sc & _ & Z). apply (sum_null js vars W ND IR SC). intros a Ra. rewrite (PP_perm _ _ a P), PP_app.
    assert (W1 : Forall (wf_jf dom vars) S1).
    { apply (wf_sub dom vars js _ W). intros f Hf. apply (Permutation_in f (Permutation_sym P)), in_or_app. left; exact Hf. }
    rewrite (proj1 (sum_null S1 vars W1 ND IR Sc) Z a Ra). ring.
  - intros Z. exists js, []. rewrite app_nil_r. split; [apply Permutation_refl|]. split; [exact SC|]. split; [intros f g u _ []|exact Z].
Qed.

Lemma dead_beside v i n : dholds w v i n -> is_utility n = false ->
  dead dom js (others (dbn w) (v :: nporder n)) a0 <-> impossible_beside w v.
Proof.
  intros H U. set (vs := others (dbn w) (v :: nporder n)).
  assert (ND : NoDup vs) by (apply NoDup_filter, (dbn_wf w I T)).
  assert (IV : incl vs vars) by (intros u Hu; apply others_In in Hu; tauto).
  assert (FP := factor_pairs js EJ). assert (W := js_wf). split.
  - intros (C & R & P & Sc & Sep & Z).
    destruct (Permutation_Forall2 P (Forall2_flip' _ _ _ FP)) as (L & PL & FL).
    destruct (Forall2_app_inv_l _ _ FL) as (LC & LR & FC & FR & ->). apply Forall2_flip' in FC, FR. cbn beta in FC, FR.
    assert (SC : incl LC (dlook w)) by (intros p Hp; apply (Permutation_in p (Permutation_sym PL)), in_or_app; left; exact Hp).
    assert (SR : incl LR (dlook w)) by (intros p Hp; apply (Permutation_in p (Permutation_sym PL)), in_or_app; right; exact Hp).
    assert (WC : Forall (wf_jf dom vars) C).
    { apply (wf_sub dom vars js _ W). intros f Hf. apply (Permutation_in f (Permutation_sym P)), in_or_app. left; exact Hf. }
    set (K := filter (fun u => existsb (fun f : jfactor => mem u (vorder (fst f))) C) vars).
    assert (IK : forall u, In u K <-> exists f, In f C /\ In u (vorder (fst f))).
    { intros u. unfold K. rewrite filter_In, existsb_exists. split.
      - intros (_ & f & Hf & M). exists f. split; [exact Hf|apply mem_In, M].
      - intros (f & Hf & M). split; [apply IV, (Sc f Hf), M|]. exists f. split; [exact Hf|apply mem_In, M]. }
    exists K. split; [split; [intros u Hu; apply filter_In in Hu; tauto|]|split].
    + intros v' i' n' u H' Hu Mu x Hx. assert (Hp := dget_In _ _ _ (proj1 H')). apply (Permutation_in _ PL) in Hp.
      apply in_app_or in Hp as [Hp|Hp].
      * destruct (Forall2_left _ _ _ _ FC Hp) as (j & Hj & J). apply IK. exists j. split; [exact Hj|]. apply (proj1 (jrel_spec _ _ (SC _ Hp) J)).
        cbn [snd]. rewrite (deref_ok _ _ _ (proj2 H')). exact Hx.
      * exfalso. destruct (Forall2_left _ _ _ _ FR Hp) as (j & Hj & J). apply IK in Hu as (f & Hf & Hu). apply (Sep f j u Hf Hj Hu).
        apply (proj1 (jrel_spec _ _ (SR _ Hp) J)). cbn [snd]. rewrite (deref_ok _ _ _ (proj2 H')). exact Mu.
    + intros X. apply IK in X as (f & Hf & X). apply (Sc f Hf) in X. apply others_In in X. apply (proj2 X). left; reflexivity.
    + apply weight_zero. intros a Ra. rewrite (kprod_part K LC LR a PL).
      * rewrite <- (PP_pairs LC C a SC FC Ra). exact (proj1 (sum_null C vs WC ND IV Sc) Z a Ra).
      * intros p Hp Up. destruct (Forall2_left _ _ _ _ FC Hp) as (j & Hj & J). apply IK. exists j. split; [exact Hj|].
        apply (proj1 (jrel_spec _ _ (SC _ Hp) J)). unfold mentions. rewrite Up, (dnamed w I _ _ _ (look_holds p (SC _ Hp))). left; reflexivity.
      * intros p Hp Up X. apply IK in X as (f & Hf & X). destruct (Forall2_left _ _ _ _ FR Hp) as (j & Hj & J).
        apply (Sep f j (fst p) Hf Hj X). apply (proj1 (jrel_spec _ _ (SR _ Hp) J)). unfold mentions.
        rewrite Up, (dnamed w I _ _ _ (look_holds p (SR _ Hp))). left; reflexivity.
  - intros (K & [KV KA] & NV & Z). set (touches := fun p : string * oid => existsb (fun u => mem u K) (mentions (nd p))).
    assert (TS : forall p, touches p = true <-> exists u, In u K /\ In u (mentions (nd p))).
    { intros p. unfold touches. rewrite existsb_exists. split; intros (u & A & B); exists u; rewrite ?mem_In in *; auto. }
    set (LC := filter touches (dlook w)). set (LR := filter (fun p => negb (touches p)) (dlook w)).
    assert (PL : Permutation (dlook w) (LC ++ LR)).
    { eapply Permutation_trans; [apply (DecVE.filter_split touches)|apply Permutation_app_comm]. }
    destruct (Permutation_Forall2 PL FP) as (js' & PJ & FL). destruct (Forall2_app_inv_l _ _ FL) as (C & R & FC & FR & ->).
    assert (SC : incl LC (dlook w)) by (intros p Hp; apply filter_In in Hp; tauto).
    assert (SR : incl LR (dlook w)) by (intros p Hp; apply filter_In in Hp; tauto).
    assert (IC : forall f u, In f C -> In u (vorder (fst f)) -> In u K).
    { intros f u Hf Hu. destruct (Forall2_right _ _ _ _ FC Hf) as (p & Hp & J). apply (proj1 (jrel_spec _ _ (SC _ Hp) J)) in Hu.
      assert (Tp : touches p = true) by (apply filter_In in Hp; tauto). apply TS in Tp as (x & Hx & Mx).
      exact (KA _ _ _ x (look_holds p (SC _ Hp)) Hx Mx u Hu). }
    assert (Sc : forall f, In f C -> incl (vorder (fst f)) vs).
    { intros f Hf u Hu. assert (Ku := IC f u Hf Hu). apply others_In. split; [apply KV, Ku|]. intros [<-|X]; [contradiction|].
      apply NV. apply (KA v i n u H Ku); unfold mentions; rewrite U; [right; exact X|]. rewrite (dnamed w I v i n H). left; reflexivity. }
    exists C, R. split; [exact PJ|]. split; [exact Sc|]. split.
    + intros f g u Hf Hg Hu X. destruct (Forall2_right _ _ _ _ FR Hg) as (p & Hp & J). apply (proj1 (jrel_spec _ _ (SR _ Hp) J)) in X.
      apply filter_In in Hp as [_ Hp]. apply negb_true_iff in Hp. assert (Tp : touches p = true) by (apply TS; exists u; split; [exact (IC f u Hf Hu)|exact X]). congruence.
    + apply (sum_null C vs); try assumption.
      { apply (wf_sub dom vars js _ W). intros f Hf. apply (Permutation_in f (Permutation_sym PJ)), in_or_app. left; exact Hf. }
      intros a Ra. rewrite (PP_pairs LC C a SC FC Ra), <- (kprod_part K LC LR a PL).
      * apply (proj1 (weight_zero K) Z a Ra).
      * intros p Hp Up. assert (Tp : touches p = true) by (apply filter_In in Hp; tauto). apply TS in Tp as (x & Hx & Mx).
        apply (KA _ _ _ x (look_holds p (SC _ Hp)) Hx Mx). unfold mentions. rewrite Up, (dnamed w I _ _ _ (look_holds p (SC _ Hp))). left; reflexivity.
      * intros p Hp Up X. assert (Hp' := SR _ Hp). apply filter_In in Hp as [_ Hp]. apply negb_true_iff in Hp.
        assert (Tp : touches p = true); [|congruence]. apply TS. exists (fst p). split; [exact X|]. unfold mentions.
        rewrite Up, (dnamed w I _ _ _ (look_holds p Hp')). left; reflexivity.
Qed.

Lemma js_trivial f : In f js -> vorder (fst f) = [] -> feval (fst f) a0 <> 0%Qc.
Proof.
  intros Hf E. destruct (js_pairs f Hf) as (p & Hp & J). destruct (jrel_spec p f Hp J) as (O & V & _). rewrite (V a0 R0). unfold pterm.
  destruct (is_utility (nd p)) eqn:U; [discriminate|]. exfalso. assert (X : In (nname (nd p)) (vorder (fst f))).
  { apply O. unfold mentions. rewrite U. left; reflexivity. }
  rewrite E in X. destruct X.
Qed.
End Dead.
End Net.
