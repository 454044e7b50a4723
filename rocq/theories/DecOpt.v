(** Local optimisation of decisions. *)
From Verif Require Import Base BaseFacts NDArray NDArrayFacts SumCalc Factor FactorFacts FactorSpec FactorProofs Exact Spec SpecFacts Node Network NetSpec NetFacts NetInv
  NetView NetTable MCSpec Decision DecSpec DecInv DecVE DecView DecNorm DecFacts.
From Coq Require Import Field.
From Coq Require Qreduction.

Section Opt.
Context {SO : SetOrder} {BO : BagOrder}.

(** A factor that mentions no eliminated variable stays in the working set. *)
Lemma eliminate_frame vs r : (forall v, In v vs -> ~ In v (vorder (fst r))) -> forall k l1 l2 l',
  eliminate k (l1 ++ l2) vs = Ok l' -> exists m1 m2, l' = m1 ++ m2 /\ eliminate k (l1 ++ r :: l2) vs = Ok (m1 ++ r :: m2).
Proof.
  induction vs as [|v vs IH]; intros N k l1 l2 l' E.
  - injection E as <-. exists l1, l2. split; reflexivity.
  - cbn [eliminate] in *. assert (M : mem v (vorder (fst r)) = false) by (apply mem_nIn, N; left; reflexivity).
    rewrite !filter_app in *. cbn [filter]. rewrite M. cbn [negb].
    destruct (combine_factors _) as [t|]; [|discriminate]. cbn [rbind] in *. destruct (marginalize_joint t v) as [m|]; [|discriminate]. cbn [rbind] in *.
    rewrite <- app_assoc in E. rewrite <- app_assoc. cbn [app]. apply IH; [|exact E]. intros u Hu. apply N. right; exact Hu.
Qed.

(** The first greatest value. *)
Definition first_best (val : string -> Qc) (l : list string) (d : string) : Prop :=
  exists pre post, l = pre ++ d :: post /\ (forall x, In x pre -> (val x < val d)%Qc) /\ forall x, In x l -> (val x <= val d)%Qc.

Lemma best_ok f v val ds : (forall d, In d ds -> exists r, get_potential f [(v, [d])] = Ok r /\ data r = [val d]) ->
  forall pre m x, data m = [val x] -> first_best val pre x ->
  exists m' x', best f v ds (Some (m, x)) = Ok (Some (m', x')) /\ first_best val (pre ++ ds) x'.
Proof.
  induction ds as [|d ds IH]; intros G pre m x Em FB.
  - exists m, x. rewrite app_nil_r. auto.
  - cbn [best]. destruct (G d (or_introl eq_refl)) as (r & -> & Er). cbn [rbind]. unfold truth_gt. rewrite Er, Em. cbn [rbind].
    replace (pre ++ d :: ds) with ((pre ++ [d]) ++ ds) by (rewrite <- app_assoc; reflexivity).
    assert (G' : forall d0, In d0 ds -> exists r, get_potential f [(v, [d0])] = Ok r /\ data r = [val d0]) by (intros; apply G; right; assumption).
    destruct FB as (p1 & p2 & E & A & B). destruct (qltb (val x) (val d)) eqn:Q.
    + apply (IH G' (pre ++ [d]) r d Er). apply qltb_true in Q. exists pre, []. split; [reflexivity|].
      assert (A' : forall y, In y pre -> (val y < val d)%Qc) by (intros y Hy; eapply Qcle_lt_trans; [apply B, Hy|exact Q]).
      split; [exact A'|]. intros y Hy. apply in_app_or in Hy as [Hy|[->|[]]]; [apply Qclt_le_weak, A', Hy|apply Qcle_refl].
    + apply (IH G' (pre ++ [d]) m x Em). exists p1, (p2 ++ [d]). split; [rewrite E, <- app_assoc; reflexivity|].
      split; [exact A|]. intros y Hy. apply in_app_or in Hy as [Hy|[->|[]]]; [apply B, Hy|].
      destruct (Qclt_le_dec (val x) (val y)) as [Z|Z]; [|exact Z]. apply qltb_true in Z. congruence.
Qed.

Lemma best_first f v val ds : ds <> [] -> (forall d, In d ds -> exists r, get_potential f [(v, [d])] = Ok r /\ data r = [val d]) ->
  exists m x, best f v ds None = Ok (Some (m, x)) /\ first_best val ds x.
Proof.
  destruct ds as [|d ds]; intros NE G; [contradiction|]. cbn [best]. destruct (G d (or_introl eq_refl)) as (r & -> & Er). cbn [rbind].
  destruct (best_ok f v val ds (fun x Hx => G x (or_intror Hx)) [d] r d Er) as (m & x & E & FB).
  - exists [], []. split; [reflexivity|]. split; [intros y []|]. intros y [->|[]]. apply Qcle_refl.
  - exists m, x. split; [exact E|exact FB].
Qed.

Lemma read_single dom f v d : wf_factor dom f -> vorder f = [v] -> NoDup (dom v) -> In d (dom v) ->
  exists r, get_potential f [(v, [d])] = Ok r /\ data r = [feval f (fun _ => idx d (dom v))].
Proof.
  intros W O ND Id. assert (FV : fvalues f v = dom v) by (unfold fvalues; rewrite (wf_vals _ _ W v); [reflexivity|rewrite O; left; reflexivity]).
  destruct (get_potential_named f [(v, [d])]) as (r & E & _ & D).
  - apply (wf_good dom f W). intros u Hu. rewrite O in Hu. destruct Hu as [<-|[]]. exact ND.
  - discriminate.
  - intros u l x Hu Dl Hx. rewrite O in Hu. destruct Hu as [<-|[]]. cbn in Dl. rewrite String.eqb_refl in Dl. injection Dl as <-.
    destruct Hx as [<-|[]]. rewrite FV. exact Id.
  - exists r. split; [exact E|]. rewrite D, O. cbn [map]. unfold choice. cbn [dget]. rewrite String.eqb_refl. cbn. f_equal.
    unfold potential_at, feval. rewrite O. cbn [map]. rewrite (wf_vals _ _ W v) by (rewrite O; left; reflexivity).
    unfold look. cbn. rewrite String.eqb_refl. reflexivity.
Qed.

Section Node.
Variable w : dworld.
Hypothesis I : dinv w.
Hypothesis T : dtidy w.
Hypothesis NN : nonneg_bn (dbn w).
Variables (v : string) (i : oid) (n : node).
Hypothesis H : dholds w v i n.
Hypothesis K : nkind n = KDecision.
Notation dom := (values_of (dbn w)).
Notation vars := (bnames (dbn w)).
Notation card := (card dom).

Lemma not_utility : is_utility n = false.
Proof. unfold is_utility. rewrite K. reflexivity. Qed.

Lemma kept_names : map fst (filter (fun p => negb (is_utility (deref (dheap w) (snd p)))) (dlook w)) = vars.
Proof. symmetry. exact (names_eq w I (fun n => negb (is_utility n))). Qed.

Lemma eliminated : filter (fun u => negb (String.eqb u v) && negb (dmem u (nparents n)))
  (map fst (filter (fun p => negb (is_utility (deref (dheap w) (snd p)))) (dlook w))) = others (dbn w) (v :: nporder n).
Proof.
  rewrite kept_names. unfold others. apply filter_ext_in. intros u _. cbn [mem existsb]. rewrite <- negb_orb. f_equal.
  rewrite String.eqb_sym. rewrite (String.eqb_sym v u). f_equal. unfold dmem. rewrite <- (dk_keys _ _ (di_ok w I i n (proj2 H))).
  destruct (dget u (nparents n)) as [o|] eqn:D.
  - symmetry. apply (proj2 (mem_In u _)). apply dget_In in D. exact (in_map fst _ _ D).
  - symmetry. apply mem_nIn. apply dget_None, D.
Qed.

(** The others, when [v] is decided. *)
Definition rest (a : asg) : Qc := qprod (map (fun n => feval (from_node n) a) (filter (fun n => negb (mem (dn_name n) [v])) (bnodes (dbn w)))).

Lemma rest_deps : deps vars rest.
Proof.
  apply (qprod_map_deps _ (fun n c => feval (from_node n) c)). intros m Hm b c E. apply feval_deps. intros u Hu.
  apply E. apply filter_In in Hm as [Hm _]. eapply (from_node_scope (dbn w) (dbn_wf w I T)); eassumption.
Qed.

Definition at_value (d : string) (a : asg) : asg := upd a v (idx d (nvalues n)).

Lemma v_name : In v vars. Proof. apply (dbn_name w I v i n H (or_intror K)). Qed.
Lemma v_dom : dom v = nvalues n. Proof. apply (dbn_values w I T v i n H (or_intror K)). Qed.

Lemma at_range d a : In d (nvalues n) -> inrange card vars a -> inrange card vars (at_value d a).
Proof.
  intros Id R u Hu. unfold at_value. destruct (string_dec u v) as [->|N]; [rewrite upd_eq; unfold FactorFacts.card; rewrite v_dom; apply idx_lt, Id|].
  rewrite upd_neq by exact N. apply R, Hu.
Qed.

Lemma plan_rest d a U G : In d (nvalues n) -> (forall c, inrange card vars c -> U (state_of (bvars (dbn w)) c) = G c) -> deps vars G ->
  plan_sum w [(v, d)] U = sum_over card (others (dbn w) [v]) (fun c => rest c * G c)%Qc (at_value d a).
Proof.
  intros Id HU DG. assert (HI : is_inst (dbn w) [v] [(v, d)]).
  { split; [constructor; [intros []|constructor]|]. split; [cbn; tauto|]. intros u x [E|[]]. injection E as <- <-. rewrite v_dom. exact Id. }
  assert (DD : deps vars (fun c => rest c * G c)%Qc) by (intros b c E; rewrite (rest_deps b c E), (DG b c E); reflexivity).
  unfold plan_sum. rewrite (mass_sum_gen (dbn w) (dbn_wf w I T) _ (fun c => rest c * G c)%Qc [(v, d)] [v] HI).
  - apply (sum_over_deps _ vars); [exact DD|]. intros u Hu NO. assert (u = v) as ->.
    { destruct (string_dec u v) as [E|E]; [exact E|]. exfalso. apply NO, others_In. split; [exact Hu|]. intros [X|[]]; congruence. }
    unfold at_value, asg_q. rewrite upd_eq, v_dom. unfold look. cbn. rewrite String.eqb_refl. reflexivity.
  - constructor; [intros []|constructor].
  - intros u [<-|[]]. exact v_name.
  - intros c R. rewrite (HU c R). f_equal. apply qprod_map_ext. intros m Hm. apply filter_In in Hm as [Hm _].
    apply (entry_state (dbn w) (dbn_wf w I T)); assumption.
  - eapply deps_ext, DD.
Qed.

(** No observed parents. *)
Hypothesis P0 : nporder n = [].

Lemma split_look : exists L1 L2, dlook w = L1 ++ (v, i) :: L2 /\ ~ In v (map fst L1) /\ ~ In v (map fst L2).
Proof.
  assert (X := proj1 H). apply dget_In in X. apply in_split in X as (L1 & L2 & E). exists L1, L2. split; [exact E|].
  assert (N := di_nodup w I). unfold dkeys in N. rewrite E, map_app in N. cbn in N. apply NoDup_remove_2 in N. rewrite in_app_iff in N. tauto.
Qed.

Lemma local_values : (forall d, In d (nvalues n) -> plan_sum w [(v, d)] (fun _ => 1%Qc) <> 0%Qc) ->
  exists js r, net_factors w = Ok js /\ generalized_VE js (others (dbn w) [v]) = Ok r /\ wf_factor dom (snd r) /\ vorder (snd r) = [v] /\
    forall d, In d (nvalues n) -> feval (snd r) (fun _ => idx d (nvalues n)) = plan_value w [(v, d)].
Proof.
  intros NZ. destruct split_look as (L1 & L2 & EL & N1 & N2).
  assert (S1 : incl L1 (dlook w)) by (rewrite EL; intros x Hx; apply in_or_app; left; exact Hx).
  assert (S2 : incl L2 (dlook w)) by (rewrite EL; intros x Hx; apply in_or_app; right; right; exact Hx).
  destruct (net_factors_list w I T NN L1 S1) as (j1 & E1 & W1 & C1 & V1 & _ & P1).
  destruct (net_factors_list w I T NN L2 S2) as (j2 & E2 & W2 & C2 & V2 & _ & P2).
  destruct (joint_factor_ok w I T NN v i n H) as (j & Ej & Wj & Oj & Vj).
  assert (ENF : net_factors w = Ok (j1 ++ j :: j2)).
  { unfold net_factors. rewrite EL, mapM_app, E1. cbn [rbind mapM snd]. unfold hget at 1. rewrite (proj2 H). cbn [rbind]. rewrite Ej. cbn [rbind].
    rewrite E2. reflexivity. }
  assert (SCJ : forall u, In u (vorder (fst j)) <-> u = v).
  { intros u. rewrite Oj, P0. split; [intros [[_ X]|[]]; exact X|]. intros ->. left. split; [exact not_utility|reflexivity]. }
  set (vs := others (dbn w) [v]). assert (NDV : NoDup vs) by (apply NoDup_filter, (dbn_wf w I T)).
  assert (IVV : incl vs vars) by (intros u Hu; apply others_In in Hu; tauto).
  assert (NV : forall u, In u vs -> ~ In u (vorder (fst j))).
  { intros u Hu X. apply SCJ in X. subst u. apply others_In in Hu. apply (proj2 Hu). left; reflexivity. }
  set (E := j1 ++ j2). assert (WE : Forall (wf_jf dom vars) E) by (apply Forall_app; auto).
  assert (CE : forall u, In u vs -> covered E u).
  { intros u Hu. apply others_In in Hu as [Hu Nu]. apply in_map_iff in Hu as (d & Ed & Hd). apply (dobj_In w I) in Hd as (u' & k & m & Hm & Um & ->).
    cbn [snapshot_node dn_name] in Ed. rewrite (dnamed w I u' k m Hm) in Ed. subst u'. apply negb_true_iff in Um.
    assert (X := proj1 Hm). apply dget_In in X. rewrite EL in X. apply in_app_or in X as [X|[X|X]].
    - destruct (C1 u k m X Hm Um) as (f & Hf & Hu'). exists f. split; [apply in_or_app; left; exact Hf|exact Hu'].
    - injection X as -> _. exfalso. apply Nu. left; reflexivity.
    - destruct (C2 u k m X Hm Um) as (f & Hf & Hu'). exists f. split; [apply in_or_app; right; exact Hf|exact Hu']. }
  assert (EO : filter (fun n => negb (mem (dn_name n) [v])) (bnodes (dbn w)) =
     map (fun p => snapshot_node (dheap w) (deref (dheap w) (snd p))) (filter (fun p => negb (is_utility (deref (dheap w) (snd p)))) (L1 ++ L2))).
  { unfold dbn. cbn [bnodes]. rewrite objects_old, filter_map_comm. f_equal. rewrite filter_filter, EL, !filter_app. cbn [filter].
    cbn [snd snapshot_node dn_name]. rewrite (deref_ok _ _ _ (proj2 H)), (dnamed w I v i n H).
    replace (mem v [v]) with true by (cbn; rewrite String.eqb_refl; reflexivity). rewrite andb_false_r.
    assert (G : forall L, incl L (dlook w) -> ~ In v (map fst L) ->
      filter (fun x => negb (is_utility (deref (dheap w) (snd x))) && negb (mem (nname (deref (dheap w) (snd x))) [v])) L =
      filter (fun p => negb (is_utility (deref (dheap w) (snd p)))) L).
    { intros L SL NL. apply filter_ext_in. intros (u & k) Hu. cbn [snd]. assert (D := SL _ Hu). apply In_dget in D; [|apply I].
      destruct (di_named w I u k D) as (m & A & B & _). rewrite (deref_ok _ _ _ A), B. cbn. rewrite eqb_neq_s; [apply andb_true_r|].
      intros ->. apply NL. exact (in_map fst _ _ Hu). }
    rewrite (G L1 S1 N1), (G L2 S2 N2). reflexivity. }
  assert (PE : forall a, inrange card vars a -> PP E a = rest a).
  { intros a R. unfold E. rewrite PP_app. destruct (P1 a R) as [-> _]. destruct (P2 a R) as [-> _]. unfold rest. rewrite EO, filter_app, map_app, map_app, qprod_app.
    rewrite !(filter_map_comm (fun p => deref (dheap w) (snd p))), !map_map. reflexivity. }
  assert (UE : forall a, inrange card vars a -> UU E a = iutil w a).
  { intros a R. unfold E. rewrite UU_app. destruct (P1 a R) as [_ ->]. destruct (P2 a R) as [_ ->]. unfold iutil. rewrite EL, map_app. cbn [map snd].
    rewrite filter_app. cbn [filter]. rewrite (deref_ok _ _ _ (proj2 H)), not_utility, map_app, qsum_app. reflexivity. }
  assert (TOP : forall d a, In d (nvalues n) -> inrange card vars a ->
    sum_over card vs (PP E) (at_value d a) = plan_sum w [(v, d)] (fun _ => 1%Qc) /\
    sum_over card vs (fun b => PP E b * UU E b)%Qc (at_value d a) = plan_sum w [(v, d)] (utilities w)).
  { intros d a Id R. rewrite (plan_rest d a _ (fun _ => 1%Qc) Id) by (repeat intro; reflexivity).
    rewrite (plan_rest d a _ (iutil w) Id (utilities_state w I T) (iutil_deps w I T)). fold vs.
    assert (RR : forall b, inrange card vs b -> (forall u, ~ In u vs -> b u = at_value d a u) -> inrange card vars b).
    { intros b Rb Eb u Hu. destruct (In_dec_s u vs) as [X|X]; [apply Rb, X|]. rewrite (Eb u X). apply at_range; assumption. }
    split; apply sum_over_ext_in; intros b Rb Eb; rewrite (PE b (RR b Rb Eb)); [ring|]. rewrite (UE b (RR b Rb Eb)). reflexivity. }
  destruct (some_range w I T) as (a0 & R0).
  assert (NEV : nvalues n <> []) by (apply (T v i n H); congruence).
  assert (exists d0, In d0 (nvalues n)) as (d0 & Id0) by (destruct (nvalues n) as [|x l]; [contradiction|exists x; left; reflexivity]).
  destruct (eliminate_spec dom vars vs NDV IVV 0 E WE CE) as (l' & El & Wl & _ & Cl & Vl).
  { exists (at_value d0 a0). split; [apply at_range; assumption|]. rewrite (proj1 (TOP d0 a0 Id0 R0)). apply NZ, Id0. }
  destruct (eliminate_frame vs j NV 0 j1 j2 l' El) as (m1 & m2 & -> & EF).
  assert (WF : Forall (wf_jf dom vars) (m1 ++ j :: m2)).
  { apply Forall_app in Wl as [Wm1 Wm2]. apply Forall_app. split; [exact Wm1|]. constructor; assumption. }
  destruct (combine_spec dom vars (length vs) (m1 ++ j :: m2) WF) as (r & Er & Wr & Or & Vr); [destruct m1; discriminate|].
  exists (j1 ++ j :: j2), r. split; [exact ENF|]. split; [exact (eq_trans (f_equal (fun x => rbind x (fun l => combine_factors (bag (length vs) l))) EF) Er)|]. split; [apply (wj_u _ _ _ Wr)|].
  assert (OS : forall u, In u (vorder (snd r)) <-> u = v).
  { intros u. rewrite (wj_scope _ _ _ Wr), Or. split.
    - intros (g & Hg & Hu). apply in_app_or in Hg as [Hg|[<-|Hg]].
      + assert (CV : covered (m1 ++ m2) u) by (exists g; split; [apply in_or_app; left; exact Hg|exact Hu]). apply Cl in CV as [CV NU].
        destruct (string_dec u v) as [X|X]; [exact X|]. exfalso. apply NU, others_In. split; [|intros [Y|[]]; congruence].
        destruct CV as (f & Hf & Hfu). rewrite Forall_forall in WE. apply (wj_vars _ _ _ (WE f Hf)), Hfu.
      + apply SCJ, Hu.
      + assert (CV : covered (m1 ++ m2) u) by (exists g; split; [apply in_or_app; right; exact Hg|exact Hu]). apply Cl in CV as [CV NU].
        destruct (string_dec u v) as [X|X]; [exact X|]. exfalso. apply NU, others_In. split; [|intros [Y|[]]; congruence].
        destruct CV as (f & Hf & Hfu). rewrite Forall_forall in WE. apply (wj_vars _ _ _ (WE f Hf)), Hfu.
    - intros ->. exists j. split; [apply in_or_app; right; left; reflexivity|]. apply SCJ. reflexivity. }
  assert (O1 : vorder (snd r) = [v]).
  { assert (ND := wf_nodup _ _ (wj_u _ _ _ Wr)). destruct (vorder (snd r)) as [|x [|y l]] eqn:EV.
    - exfalso. assert (X := proj2 (OS v) eq_refl). destruct X.
    - assert (x = v) by (apply OS; left; reflexivity). subst; reflexivity.
    - exfalso. assert (x = v) by (apply OS; left; reflexivity). assert (y = v) by (apply OS; right; left; reflexivity). subst.
      inversion ND as [|? ? Z _]; subst. apply Z. left; reflexivity. }
  split; [exact O1|]. intros d Id. assert (RD := at_range d a0 Id R0).
  assert (FE : feval (snd r) (fun _ => idx d (nvalues n)) = feval (snd r) (at_value d a0)).
  { apply feval_deps. rewrite O1. intros u [<-|[]]. unfold at_value. rewrite upd_eq. reflexivity. }
  rewrite FE, (proj2 (Vr _ RD)). rewrite UU_app. unfold UU at 2. cbn [map qsum]. fold (UU m2 (at_value d a0)).
  destruct (Vj _ RD) as [_ ->]. unfold uterm. rewrite not_utility.
  destruct (Vl _ RD) as [A B]. rewrite UU_app in B. rewrite (proj1 (TOP d a0 Id R0)) in A. rewrite (proj2 (TOP d a0 Id R0)), A in B.
  unfold plan_value. rewrite <- B. field. apply NZ, Id.
Qed.

Theorem local_best : (forall d, In d (nvalues n) -> plan_sum w [(v, d)] (fun _ => 1%Qc) <> 0%Qc) ->
  exists d, optimize_locally w v = Ok d /\ first_best (fun x => plan_value w [(v, x)]) (nvalues n) d.
Proof.
  intros NZ. destruct (local_values NZ) as (js & r & E1 & E2 & W & O & V). destruct (T v i n H) as [NE ND]; [congruence|].
  destruct (best_first (snd r) v (fun x => plan_value w [(v, x)]) (nvalues n) NE) as (m & d & Eb & FB).
  - intros d Id. destruct (read_single dom (snd r) v d W O) as (x & Ex & Dx); [rewrite v_dom; exact ND|rewrite v_dom; exact Id|].
    exists x. split; [exact Ex|]. rewrite Dx, v_dom, (V d Id). reflexivity.
  - exists d. split; [|exact FB]. unfold optimize_locally, dget_err, hget, values_attr. rewrite (proj1 H). cbn [rbind]. rewrite (proj2 H). cbn [rbind].
    rewrite E1. cbn [rbind]. rewrite eliminated, P0, E2. cbn [rbind]. rewrite K. cbn [rbind]. rewrite Eb. reflexivity.
Qed.
End Node.

(** Decisions with observed parents. *)
Lemma length_states vars : length (states vars) = prodn (map (fun p => length (snd p)) vars).
Proof.
  induction vars as [|(v & l) vars IH]; [reflexivity|]. cbn [states map prodn snd]. rewrite (flat_map_length_const _ l (length (states vars))).
  - rewrite IH. reflexivity.
  - intros x _. apply map_length.
Qed.

Lemma prodn_ge2 {A} (g : A -> nat) l x : In x l -> 2 <= g x -> (forall y, In y l -> 1 <= g y) -> 2 <= prodn (map g l).
Proof.
  assert (P1 : forall l, (forall y, In y l -> 1 <= g y) -> 1 <= prodn (map g l)).
  { clear. induction l as [|y l IH]; intros P; [apply le_n|]. cbn [map prodn]. specialize (IH (fun z Hz => P z (or_intror Hz))).
    specialize (P y (or_introl eq_refl)). nia. }
  induction l as [|y l IH]; intros Hx G P; [destruct Hx|]. cbn [map prodn]. assert (Py := P y (or_introl eq_refl)).
  assert (P' : forall z, In z l -> 1 <= g z) by (intros z Hz; apply P; right; exact Hz).
  destruct Hx as [->|Hx]; [specialize (P1 l P'); nia|specialize (IH Hx G P'); nia].
Qed.

Theorem local_informed w v i n q : dinv w -> dtidy w -> nonneg_bn (dbn w) -> plan_sum w [] (fun _ => 1%Qc) <> 0%Qc ->
  dholds w v i n -> nkind n = KDecision -> 2 <= length (nvalues n) -> In q (nporder n) -> 2 <= length (dvals w q) ->
  optimize_locally w v = Err ValueError.
Proof.
  intros I T NN NZ H K L2 Iq Lq. destruct (some_range w I T) as (a0 & R0).
  destruct (net_factors_ok w I T NN) as (js & E & W & C & NE & V).
  assert (NL : dlook w <> []) by (intros Z; assert (X := proj1 H); rewrite Z in X; discriminate).
  set (vs := others (dbn w) (v :: nporder n)).
  assert (OK : exists a, inrange (card (values_of (dbn w))) (bnames (dbn w)) a /\ sum_over (card (values_of (dbn w))) vs (PP js) a <> 0%Qc).
  { set (F := sum_over (card (values_of (dbn w))) vs (PP js)).
    set (out := v :: nporder n). assert (NDO : NoDup out).
    { unfold out. rewrite <- (dnamed w I v i n H). apply (dk_names _ _ (di_ok w I i n (proj2 H))). }
    assert (IO : incl out (bnames (dbn w))).
    { intros u [<-|Hu]; [apply (dbn_name w I v i n H (or_intror K))|apply (parent_dvals w I T v i n u H Hu)]. }
    assert (P := others_split (dbn w) (dbn_wf w I T) out NDO IO). fold vs in P.
    assert (TOT : sum_over (card (values_of (dbn w))) out F a0 = plan_sum w [] (fun _ => 1%Qc)).
    { unfold F. rewrite <- sum_over_app. rewrite <- (sum_over_perm _ _ _ (PP js) (deps_ext _ _ (PP_deps _ _ js W)) P).
      rewrite (plan_all_ix w _ (fun _ => 1%Qc) a0 I T); try (repeat intro; reflexivity).
      apply sum_over_ext_in. intros c Rc _. rewrite (proj1 (V c Rc)). ring. }
    assert (FW : forall out', incl out' (bnames (dbn w)) -> forall a, inrange (card (values_of (dbn w))) (bnames (dbn w)) a ->
      sum_over (card (values_of (dbn w))) out' F a <> 0%Qc -> exists c, inrange (card (values_of (dbn w))) (bnames (dbn w)) c /\ F c <> 0%Qc).
    { clear. induction out' as [|u o IH]; intros S a R Z; [exists a; auto|]. cbn [sum_over] in Z.
      assert (G : exists k, k < card (values_of (dbn w)) u /\ sum_over (card (values_of (dbn w))) o F (upd a u k) <> 0%Qc).
      { revert Z. generalize (card (values_of (dbn w)) u). intros m Z.
        assert (forall m, (forall k, k < m -> sum_over (card (values_of (dbn w))) o F (upd a u k) = 0%Qc) ->
           bigsum m (fun k => sum_over (card (values_of (dbn w))) o F (upd a u k)) = 0%Qc) as B.
        { intros m' Hm. rewrite (bigsum_ext m' _ (fun _ => 0 * 0)%Qc) by (intros k Hk; rewrite (Hm k Hk); ring). rewrite bigsum_mult_l. ring. }
        induction m as [|m IHm]; [exfalso; apply Z, B; lia|].
        destruct (Qc_eq_dec (sum_over (card (values_of (dbn w))) o F (upd a u m)) 0%Qc) as [Q|Q]; [|exists m; split; [lia|exact Q]].
        destruct (Qc_eq_dec (bigsum m (fun k => sum_over (card (values_of (dbn w))) o F (upd a u k))) 0%Qc) as [Q2|Q2].
        - exfalso. apply Z. unfold bigsum in *. rewrite seq_S, map_app, qsum_app. cbn [map qsum Nat.add]. rewrite Q2, Q. ring.
        - destruct (IHm Q2) as (k & Hk & X). exists k. split; [lia|exact X]. }
      destruct G as (k & Hk & G). apply (IH (fun x Hx => S x (or_intror Hx)) (upd a u k)); [|exact G].
      intros x Hx. destruct (string_dec x u) as [->|N]; [rewrite upd_eq; exact Hk|rewrite upd_neq by exact N; apply R, Hx]. }
    apply (FW out IO a0 R0). rewrite TOT. exact NZ. }
  destruct (generalized_VE_spec (values_of (dbn w)) (bnames (dbn w)) js vs) as (r & Er & Wr & Or & _); try assumption.
  - apply NoDup_filter, (dbn_wf w I T).
  - intros u Hu. apply others_In in Hu. tauto.
  - exact (NE NL).
  - intros u Hu. apply C. apply others_In in Hu. tauto.
  - assert (OS : forall u, In u (vorder (snd r)) <-> In u (v :: nporder n)).
    { intros u. rewrite (wj_scope _ _ _ Wr), Or, <- C. unfold vs. rewrite others_In. split.
      - intros [A B]. destruct (In_dec_s u (v :: nporder n)) as [X|X]; [exact X|]. exfalso. apply B. auto.
      - intros X. split; [|intros [_ Y]; exact (Y X)]. destruct X as [<-|X]; [apply (dbn_name w I v i n H (or_intror K))|apply (parent_dvals w I T v i n u H X)]. }
    assert (WU := wj_u _ _ _ Wr).
    assert (ND : forall u, In u (bnames (dbn w)) -> NoDup (values_of (dbn w) u) /\ 1 <= length (values_of (dbn w) u)).
    { intros u Hu. apply (in_bnames (dbn w)) in Hu as (m & Hm & <-). rewrite (values_of_node (dbn w) (dbn_wf w I T) m Hm).
      destruct (wn_values _ _ (wb_nodes _ (dbn_wf w I T) m Hm)) as [A B]. split; [exact B|]. destruct (dn_values m); [contradiction|cbn; lia]. }
    assert (SV : forall u, In u (vorder (snd r)) -> In u (bnames (dbn w))).
    { intros u Hu. apply (wj_vars _ _ _ Wr), (wj_scope _ _ _ Wr), Hu. }
    assert (FV : forall u, In u (vorder (snd r)) -> fvalues (snd r) u = values_of (dbn w) u).
    { intros u Hu. unfold fvalues. rewrite (wf_vals _ _ WU u Hu). reflexivity. }
    assert (DV := dbn_values w I T v i n H (or_intror K)).
    assert (Qv : q <> v).
    { intros ->. assert (X := dk_names _ _ (di_ok w I i n (proj2 H))). rewrite (dnamed w I v i n H) in X. inversion X; contradiction. }
    assert (GP : forall d, In d (nvalues n) -> exists x, get_potential (snd r) [(v, [d])] = Ok x /\ 2 <= length (data x)).
    { intros d Id. destruct (get_potential_named (snd r) [(v, [d])]) as (x & Ex & _ & Dx).
      - apply (wf_good _ _ WU). intros u Hu. apply ND, SV, Hu.
      - discriminate.
      - intros u l y Hu Dl Hy. cbn in Dl. destruct (String.eqb_spec u v) as [->|_]; [|discriminate]. injection Dl as <-.
        destruct Hy as [<-|[]]. rewrite (FV v Hu), DV. exact Id.
      - exists x. split; [exact Ex|]. rewrite Dx, map_length, length_states, map_map. cbn [snd].
        apply (prodn_ge2 (fun u => length (choice (snd r) [(v, [d])] u)) _ q).
        + apply OS. right; exact Iq.
        + unfold choice. cbn [dget]. rewrite eqb_neq_s by exact Qv. rewrite FV by (apply OS; right; exact Iq).
          rewrite (proj1 (parent_dvals w I T v i n q H Iq)). exact Lq.
        + intros u Hu. unfold choice. cbn [dget]. destruct (String.eqb u v); [cbn; lia|]. rewrite (FV u Hu). apply ND, SV, Hu. }
    unfold optimize_locally, dget_err, hget, values_attr. rewrite (proj1 H). cbn [rbind]. rewrite (proj2 H). cbn [rbind].
    rewrite E. cbn [rbind]. rewrite (eliminated w I v i n H). fold vs. rewrite Er. cbn [rbind]. rewrite K. cbn [rbind].
    destruct (nvalues n) as [|d1 [|d2 l]]; [cbn in L2; lia|cbn in L2; lia|]. cbn [best].
    destruct (GP d1) as (x1 & -> & Y1); [left; reflexivity|]. cbn [rbind best].
    destruct (GP d2) as (x2 & -> & Y2); [right; left; reflexivity|]. cbn [rbind]. unfold truth_gt.
    destruct (data x2) as [|y [|z t]]; [cbn in Y2; lia|cbn in Y2; lia|]. reflexivity.
Qed.

(** Preparation. *)
Definition mixed (n n' : node) : Prop := exists t, n' = with_cpd n t (nvalid n) /\ real_array (tarr t) /\
  shape (tarr t) = shape (tarr (ncpd n)) /\ forall ix, inb (shape (tarr t)) ix -> aget (tarr t) ix = (/ qnat (length (nvalues n)))%Qc.

Lemma fully_mixed_ok n : nkind n = KDecision -> nvalues n <> [] -> exists n', fully_mixed n = Ok n' /\ mixed n n'.
Proof.
  intros K NE. unfold fully_mixed. rewrite K. destruct (nvalues n) as [|x l] eqn:E; [contradiction|]. eexists. split; [reflexivity|].
  eexists. split; [reflexivity|]. cbn [tarr]. split; [apply real_full|]. split; [apply eq_sym, tarr_shape|]. intros ix B. rewrite E.
  unfold np_full in B |- *. rewrite shape_tabulate in B. apply (aget_tabulate _ (fun _ => (/ qnat (length (x :: l)))%Qc) ix B).
Qed.

Lemma qnat_inv_nonneg m : (0 <= / qnat m)%Qc.
Proof.
  destruct m as [|m]; [discriminate|]. apply Qclt_le_weak, Qcinv_pos. unfold Qclt, qnat, Q2Qc. cbn [this].
  rewrite !Qreduction.Qred_correct. unfold QArith_base.Qlt, inject_Z. cbn [Qnum Qden]. lia.
Qed.

Lemma mixed_same n n' : mixed n n' -> face n' = face n /\ nporder n' = nporder n.
Proof. intros (t & -> & _). split; reflexivity. Qed.

Definition ready (fixed : dict string) (order : list string) (v : string) (n n' : node) : Prop :=
  (~ In v order -> n' = n) /\ (In v order -> match dget v fixed with Some d => decided n n' d | None => mixed n n' end).

Definition optimisable (w : dworld) (fixed : dict string) (v : string) : Prop :=
  exists i n, dholds w v i n /\ nkind n = KDecision /\ forall d, dget v fixed = Some d -> In d (nvalues n).

Lemma set_table w v i n n' : dinv w -> dholds w v i n ->
  forall u j m, dholds w u j m -> dholds (mkDW (list_set i n' (dheap w)) (dlook w)) u j (if string_dec u v then n' else m).
Proof.
  intros I H u j m [A B]. split; [exact A|]. cbn. rewrite nth_error_list_set, B. destruct (string_dec u v) as [->|N].
  - assert (j = i) by (destruct H; congruence). subst j. destruct (Nat.eq_dec i i); [reflexivity|contradiction].
  - destruct (Nat.eq_dec j i) as [->|_]; [|reflexivity]. exfalso. apply N. rewrite <- (dnamed w I u i m (conj A B)).
    assert (m = n) by (destruct H; congruence). subst m. apply (dnamed w I v i n H).
Qed.

Lemma prepare_ok fixed order : forall w, dinv w -> dtidy w -> NoDup order -> (forall v, In v order -> optimisable w fixed v) ->
  exists w1, prepare w order fixed = (w1, Ok tt) /\ dinv w1 /\ dlook w1 = dlook w /\
    forall v i n, dholds w v i n -> exists n', dholds w1 v i n' /\ ready fixed order v n n'.
Proof.
  induction order as [|v order IH]; intros w I T ND Q.
  - exists w. split; [reflexivity|]. split; [exact I|]. split; [reflexivity|]. intros v i n H. exists n. split; [exact H|]. split; [reflexivity|intros []].
  - inversion ND as [|? ? NI ND']; subst. destruct (Q v (or_introl eq_refl)) as (i & n & H & K & D).
    assert (NE : nvalues n <> []) by (apply (T v i n H); congruence).
    assert (ST : exists n', (match dget v fixed with None => d_on_node w i fully_mixed | Some d => d_decide w i d end) =
        (mkDW (list_set i n' (dheap w)) (dlook w), Ok tt) /\ dinv (mkDW (list_set i n' (dheap w)) (dlook w)) /\
        face n' = face n /\ match dget v fixed with Some d => decided n n' d | None => mixed n n' end).
    { destruct (dget v fixed) as [d|].
      - destruct (set_decision_ok (dheap w) n d (di_ok w I i n (proj2 H)) K (D d eq_refl)) as (n' & E & DD). exists n'.
        assert (I1 := inv_decide w i d I). unfold d_decide in *. rewrite (proj2 H), E in *. cbn [fst snd] in *.
        split; [reflexivity|]. split; [exact I1|]. split; [apply (decided_same _ _ _ DD)|exact DD].
      - destruct (fully_mixed_ok n K NE) as (n' & E & M). exists n'. assert (I1 := inv_mixed w i I). unfold d_on_node in *. rewrite (proj2 H), E in *.
        cbn [fst] in I1. split; [reflexivity|]. split; [exact I1|]. split; [apply (mixed_same _ _ M)|exact M]. }
    destruct ST as (n' & E & I1 & F & M). set (w1 := mkDW (list_set i n' (dheap w)) (dlook w)) in *.
    assert (G := set_table w v i n n' I H).
    assert (B : forall u j m', dholds w1 u j m' -> exists m, dholds w u j m /\ face m' = face m).
    { intros u j m' Hm'. destruct (di_named w I u j (proj1 Hm')) as (m & A & _). exists m. split; [split; [apply Hm'|exact A]|].
      assert (X := G u j m (conj (proj1 Hm') A)). assert (Y := proj2 X). assert (Z := proj2 Hm'). cbn in Y, Z.
      destruct (string_dec u v) as [->|_]; [|congruence]. assert (m' = n') by congruence. subst m'. rewrite F. assert (m = n) by (destruct Hm' as [A1 _], H as [A2 A3]; cbn in A1; congruence). congruence. }
    destruct (IH w1 I1) as (w2 & E2 & I2 & L2 & R2).
    + intros u j m' Hm' Ku. destruct (B u j m' Hm') as (m & Hm & Fm). unfold face in Fm. injection Fm as F1 F2 F3. rewrite F3.
      apply (T u j m Hm). congruence.
    + exact ND'.
    + intros u Hu. destruct (Q u (or_intror Hu)) as (j & m & Hm & Km & Dm). exists j. eexists. split; [apply (G u j m Hm)|].
      destruct (string_dec u v) as [->|_]; [contradiction|]. auto.
    + exists w2. split; [cbn [prepare]; rewrite (proj1 H), E; exact E2|]. split; [exact I2|]. split; [rewrite L2; reflexivity|].
      intros u j m Hm. destruct (R2 u j _ (G u j m Hm)) as (m2 & Hm2 & RA & RB). exists m2. split; [exact Hm2|].
      destruct (string_dec u v) as [->|Nu].
      * rewrite (RA NI). split; [intros X; exfalso; apply X; left; reflexivity|]. intros _.
        assert (m = n) by (destruct Hm, H; congruence). subst m. exact M.
      * split; [intros X; apply RA; intros Y; apply X; right; exact Y|]. intros [X|X]; [congruence|apply RB, X].
Qed.

Lemma ready_same w w1 fixed order : dlook w1 = dlook w ->
  (forall v i n, dholds w v i n -> exists n', dholds w1 v i n' /\ ready fixed order v n n') -> same_but w w1 order.
Proof.
  intros L R. constructor; [exact L|]. intros v i n H. destruct (R v i n H) as (n' & H' & A & B). exists n'. split; [exact H'|].
  destruct (In_dec_s v order) as [X|X].
  - specialize (B X). destruct (dget v fixed) as [d|]; [destruct (decided_same _ _ _ B) as (F & P & _)|destruct (mixed_same _ _ B) as (F & P)]; auto; tauto.
  - rewrite (A X). auto.
Qed.

Lemma solve_all w1 (good : string -> string -> Prop) order : (forall v, In v order -> exists d, optimize_locally w1 v = Ok d /\ good v d) ->
  forall acc, exists sol, foldM (fun sol v => let* d := optimize_locally w1 v in Ok (dset v d sol)) order acc = Ok sol /\
    (forall v, In v order -> exists d, dget v sol = Some d /\ good v d) /\ forall v, ~ In v order -> dget v sol = dget v acc.
Proof.
  induction order as [|v order IH]; intros G acc.
  - exists acc. split; [reflexivity|]. split; [intros v []|reflexivity].
  - destruct (G v (or_introl eq_refl)) as (d & E & Gd). cbn [foldM]. rewrite E. cbn [rbind].
    destruct (IH (fun u Hu => G u (or_intror Hu)) (dset v d acc)) as (sol & Es & A & B). exists sol. split; [exact Es|]. split.
    + intros u Hu. destruct (In_dec_s u order) as [X|X]; [apply A, X|]. destruct Hu as [<-|Hu]; [|contradiction].
      exists d. split; [|exact Gd]. rewrite (B _ X). apply dget_dset_eq.
    + intros u Hu. rewrite B by (intros X; apply Hu; right; exact X). apply dget_dset_neq. intros ->. apply Hu. left; reflexivity.
Qed.

Theorem optimal_local w order fixed w1 : dinv w -> dtidy w -> NoDup order -> (forall v, In v order -> optimisable w fixed v) ->
  (forall v i n, In v order -> dholds w v i n -> nporder n = []) ->
  w1 = fst (prepare w order fixed) -> nonneg_bn (dbn w1) ->
  (forall v i n d, In v order -> dholds w v i n -> In d (nvalues n) -> plan_sum w1 [(v, d)] (fun _ => 1%Qc) <> 0%Qc) ->
  exists sol, optimal_decisions w order fixed = (w1, Ok sol) /\
    (forall v, In v (dkeys sol) <-> In v order) /\
    forall v i n, In v order -> dholds w v i n -> exists d, dget v sol = Some d /\ first_best (fun x => plan_value w1 [(v, x)]) (nvalues n) d.
Proof.
  intros I T ND Q NP -> NN NZ. destruct (prepare_ok fixed order w I T ND Q) as (w1 & E & I1 & L1 & R1). rewrite E in *. cbn [fst] in *.
  assert (SB := ready_same w w1 fixed order L1 R1). assert (T1 := same_tidy w w1 order I SB T).
  destruct (solve_all w1 (fun v d => forall i n, dholds w v i n -> first_best (fun x => plan_value w1 [(v, x)]) (nvalues n) d) order) with (acc := @nil (string * string))
    as (sol & Es & A & B).
  - intros v Hv. destruct (Q v Hv) as (i & n & H & K & _). destruct (sb_objs _ _ _ SB v i n H) as (n' & H' & F & P & _).
    unfold face in F. injection F as F1 F2 F3.
    destruct (local_best w1 I1 T1 NN v i n' H') as (d & Ed & FB); [congruence|rewrite P; apply (NP v i n Hv H)| |].
    + intros d Id. rewrite F3 in Id. apply (NZ v i n d Hv H Id).
    + exists d. split; [exact Ed|]. intros j m Hm. assert (m = n) by (destruct Hm, H; congruence). subst m. rewrite F3 in FB. exact FB.
  - exists sol. unfold optimal_decisions. rewrite E. split; [rewrite Es; reflexivity|]. split.
    + intros v. split.
      * intros Hv. destruct (In_dec_s v order) as [X|X]; [exact X|]. specialize (B v X). cbn in B. apply dget_None in B. contradiction.
      * intros Hv. destruct (A v Hv) as (d & D & _). apply dget_In in D. exact (in_map fst _ _ D).
    + intros v i n Hv H. destruct (A v Hv) as (d & D & G). exists d. split; [exact D|apply (G i n H)].
Qed.

(** One decision. *)
Lemma open_one w v d d' : open_nodes w [(v, d)] = open_nodes w [(v, d')]. Proof. reflexivity. Qed.

Theorem optimal_single w v i n fixed order : dinv w -> dtidy w -> dholds w v i n -> nkind n = KDecision -> nporder n = [] ->
  (forall d, dget v fixed = Some d -> In d (nvalues n)) ->
  nonneg_tables (open_nodes w [(v, "")]) -> stochastic_tables (open_nodes w [(v, "")]) -> topological (dbn w) order ->
  exists w1 d, optimal_decisions w [v] fixed = (w1, Ok [(v, d)]) /\ first_best (fun x => plan_value w [(v, x)]) (nvalues n) d.
Proof.
  intros I T H K P0 FX NN ST TO. assert (ND1 : NoDup [v]) by (constructor; [intros []|constructor]).
  assert (Q : forall u, In u [v] -> optimisable w fixed u) by (intros u [<-|[]]; exists i, n; auto).
  destruct (prepare_ok fixed [v] w I T ND1 Q) as (w1 & E & I1 & L1 & R1).
  assert (SB := ready_same w w1 fixed [v] L1 R1).
  assert (KD : forall u j m, In u [v] -> dholds w u j m -> nkind m = KDecision).
  { intros u j m [<-|[]] Hm. assert (m = n) by (destruct Hm, H; congruence). congruence. }
  assert (IN : forall d : string, incl [v] (dkeys [(v, d)])) by (intros d u Hu; exact Hu).
  destruct (optimal_local w [v] fixed w1 I T ND1 Q) as (sol & Es & Ks & As).
  - intros u j m [<-|[]] Hm. assert (m = n) by (destruct Hm, H; congruence). congruence.
  - rewrite E. reflexivity.
  - intros m Hm. destruct (R1 v i n H) as (n' & H' & RA & RB). specialize (RB (or_introl eq_refl)).
    apply (dobj_In w1 I1) in Hm as (u & j & x & Hx & Ux & ->). destruct (string_dec u v) as [->|Nu].
    + assert (x = n') by (destruct Hx, H'; congruence). subst x. cbn [snapshot_node dn_cpd].
      assert (NEV : nvalues n <> []) by (apply (T v i n H); congruence).
      assert (XX : exists t, n' = with_cpd n t (nvalid n) /\ real_array (tarr t) /\ forall ix, inb (shape (tarr t)) ix -> (0 <= aget (tarr t) ix)%Qc).
      { destruct (dget v fixed) as [d|]; destruct RB as (t & En & RT & SH & V); exists t; split; try exact En; split; try exact RT; intros ix B.
        - assert (exists a b, ix = a :: b) as (a & b & ->).
          { destruct ix as [|a b]; [|do 2 eexists; reflexivity]. rewrite SH, (dshape w I v i n H), (own_dims_values n (or_intror K) NEV) in B. inversion B. }
          rewrite V by exact B. destruct (Nat.eqb _ _); discriminate.
        - rewrite V by exact B. apply qnat_inv_nonneg. }
      destruct XX as (t & -> & RT & V). cbn [ncpd with_cpd]. rewrite (data_aget _ RT). apply Forall_forall. intros z Hz.
      apply in_map_iff in Hz as (ix & <- & Hix). apply V, In_indices, Hix.
    + assert (OS := open_same w w1 [v] I I1 SB [(v, "")] (IN "")).
      apply NN. rewrite <- OS. apply filter_In. split; [apply (dobj_In w1 I1); exists u, j, x; auto|].
      cbn [snapshot_node dn_name]. rewrite (dnamed w1 I1 u j x Hx). cbn. rewrite eqb_neq_s by exact Nu. reflexivity.
  - intros u j m d [<-|[]] Hm Id. assert (m = n) by (destruct Hm, H; congruence). subst m.
    rewrite (plan_same w w1 [v] I I1 SB [(v, d)] _ (IN d)).
    rewrite (plan_one w [(v, d)] order I T); [discriminate| |exact ST|exact TO].
    split; [exact ND1|]. intros x y [X|[]]. injection X as <- <-. exists i, n. auto.
  - destruct (As v i n (or_introl eq_refl) H) as (d & Dd & FB). exists w1, d. split.
    + rewrite Es. f_equal. f_equal.
      unfold optimal_decisions in Es. rewrite E in Es. cbn [foldM] in Es. destruct (optimize_locally w1 v) as [x|]; [|discriminate Es].
      cbn in Es. injection Es as <-. cbn in Dd. rewrite String.eqb_refl in Dd. injection Dd as ->. reflexivity.
    + destruct FB as (pre & post & X1 & X2 & X3). exists pre, post. split; [exact X1|].
      assert (VS : forall x, plan_value w1 [(v, x)] = plan_value w [(v, x)]) by (intros x; apply (value_same w w1 [v] I I1 SB KD [(v, x)] (IN x))).
      split; intros x Hx; rewrite <- !VS; auto.
Qed.
End Opt.

Lemma first_best_unique val l d d' : first_best val l d -> first_best val l d' -> d = d'.
Proof.
  intros (p & q & E & A & B) (p' & q' & E' & A' & B'). subst l. symmetry in E'. revert p' E' A'.
  assert (G : forall p p', p' ++ d' :: q' = p ++ d :: q -> (forall x, In x p -> (val x < val d)%Qc) -> (forall x, In x p' -> (val x < val d')%Qc) ->
    (val d' <= val d)%Qc -> (val d <= val d')%Qc -> d = d').
  { clear. induction p as [|x p IH]; intros [|x' p'] E A A' L L'; cbn in E; injection E as E1 E2.
    - congruence.
    - exfalso. subst x'. assert (X := A' d (or_introl eq_refl)). exact (Qclt_not_le _ _ X L).
    - exfalso. subst x. assert (X := A d' (or_introl eq_refl)). exact (Qclt_not_le _ _ X L').
    - apply (IH p' E2); auto using in_cons. }
  intros p' E' A'. apply (G p p'); auto.
  - apply B. rewrite <- E'. apply in_or_app. right. left. reflexivity.
  - apply B'. apply in_or_app. right. left. reflexivity.
Qed.
