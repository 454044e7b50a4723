(** Desired posteriors: the ratios, the old marginals, and the tree in rounded arithmetic. *)
From Coq Require Import Field.
From Verif Require Import Base BaseFacts NDArray NDArrayFacts SumCalc Factor FactorFacts Exact Spec SpecFacts VEProof VEProof2 Order OrderSpec JoinTree HuginPure Hugin JTProof JTProof2 TreeSpec
  JTTop JTHistory JTAgain JTAgain3 LeftProof Rounded RoundedSpec RoundedProof RoundedTop RoundedTree RoundedTreeSpec RoundedTreeProof RoundedTreeTop RoundedSoft RoundedSoftSpec.

Lemma mapM_related {A B C} (f : A -> res B) (g : A -> res C) (R : B -> C -> Prop) l ys :
  (forall x y, In x l -> f x = Ok y -> exists z, g x = Ok z /\ R y z) -> mapM f l = Ok ys -> exists zs, mapM g l = Ok zs /\ Forall2 R ys zs.
Proof.
  revert ys. induction l as [|x l IH]; intros ys H E; cbn [mapM] in *.
  - inversion E; subst. exists []. split; [reflexivity|constructor].
  - destruct (f x) as [y|] eqn:F; cbn [rbind] in E; [|discriminate]. destruct (mapM f l) as [ys'|] eqn:M; cbn [rbind] in E; [|discriminate]. inversion E; subst ys.
    destruct (H x y (or_introl eq_refl) F) as (z & G & Rz). destruct (IH ys' (fun a y Ha => H a y (or_intror Ha)) eq_refl) as (zs & M' & Rs).
    exists (z :: zs). rewrite G. cbn [rbind]. rewrite M'. cbn [rbind]. split; [reflexivity|constructor; assumption].
Qed.

Lemma f2_mono {A B} (R S : A -> B -> Prop) l l' : (forall x y, R x y -> S x y) -> Forall2 R l l' -> Forall2 S l l'.
Proof. intros H. induction 1; constructor; auto. Qed.

Section Ratio.
Context {RD : Rounding}.

Lemma close_quot j k x y x' y' : close j x x' -> close k y y' -> (0 < y)%Qc -> close (j + k + 1) (x / y) (rnd (x' / y'))%Qc.
Proof.
  intros H1 H2 P. assert (H3 := close_inv _ _ _ H2 P). assert (H4 := close_mul _ _ _ _ _ _ H1 H3). eapply close_trans; [exact H4|]. apply close_rnd. apply H4.
Qed.
Lemma close_prod j k x y x' y' : close j x x' -> close k y y' -> close (j + k + 1) (x * y) (rnd (x' * y'))%Qc.
Proof. intros H1 H2. assert (H4 := close_mul _ _ _ _ _ _ H1 H2). eapply close_trans; [exact H4|]. apply close_rnd. apply H4. Qed.

(** One rounded computation of the ratios. *)
Lemma ratio_close k q old old' l : length q = length old -> Forall (fun x => 0 <= x)%Qc q -> Forall2 (close k) old old' ->
  soft_ratio q old = Ok l -> exists l', rounded_ratio q old' = Ok l' /\ Forall2 (close (2 * k + 3)) l l'.
Proof.
  intros L NQ F E. assert (L' := forall2_length _ _ _ _ _ F). unfold soft_ratio in E. unfold rounded_ratio, soft_ratio_by. destruct (argmax q) as [[r m]|] eqn:A; [|discriminate].
  apply argmax_first in A as (Lr & Nr & _). assert (Nm : (0 <= m)%Qc) by (rewrite <- Nr; apply nth_Forall_nonneg, NQ).
  assert (C : forall i, i < length q -> close k (nth i old 0%Qc) (nth i old' 0%Qc)) by (intros i Hi; exact (forall2_nth _ _ _ F i)).
  revert E. apply mapM_related. intros i y Hi E. apply in_seq in Hi. destruct (Nat.eqb i r). { inversion E; subst. exists 1%Qc. split; [reflexivity|apply close_refl; discriminate]. }
  assert (Ci := C i ltac:(lia)). assert (Cr := C r Lr). rewrite (nth_error_nth' old 0%Qc) in E by lia. rewrite (nth_error_nth' old 0%Qc) in E by lia.
  rewrite (nth_error_nth' old' 0%Qc) by lia. rewrite (nth_error_nth' old' 0%Qc) by lia.
  assert (Pi := close_pos _ _ _ Ci). assert (Ci' := Ci). destruct Ci as (N1 & N2 & _). destruct (qeqb (nth i old 0%Qc) 0%Qc) eqn:Z.
  - apply qeqb_true in Z. inversion E; subst y. assert (Z' : nth i old' 0%Qc = 0%Qc).
    { destruct (Qc_dec (nth i old' 0%Qc) 0) as [[D|D]|D]; [destruct (Qclt_not_le _ _ D N2)| |exact D]. apply Pi in D. rewrite Z in D. destruct (Qc_lt_irrefl _ D). }
    rewrite Z'. rewrite (proj2 (qeqb_true 0 0)%Qc) by reflexivity. exists 0%Qc. split; [reflexivity|]. apply close_refl, Qcle_refl.
  - apply qeqb_false in Z. assert (P := Qc_nonneg_neq0_pos _ N1 Z). assert (P' := proj1 Pi P). rewrite (proj2 (qeqb_false _ _)) by (apply Qc_pos_neq0, P').
    destruct (qeqb m 0%Qc) eqn:ZM; [discriminate|]. apply qeqb_false in ZM. assert (Pm := Qc_nonneg_neq0_pos _ Nm ZM). inversion E; subst y. eexists. split; [reflexivity|].
    assert (C0 : close 0 (nth i q 0%Qc) (nth i q 0%Qc)) by (apply close_refl, nth_Forall_nonneg, NQ). assert (Cm : close 0 m m) by (apply close_refl, Nm).
    assert (D1 := close_quot _ _ _ _ _ _ C0 Ci' P). assert (D2 := close_prod _ _ _ _ _ _ D1 Cr). assert (D3 := close_quot _ _ _ _ _ _ D2 Cm Pm).
    eapply close_mono; [|exact D3]. lia.
Qed.
End Ratio.

(** Resetting looks at the structure only. *)
Lemma clear_alike t t' : skel t = skel t' -> tvalid t = tvalid t' -> clear_factors t = clear_factors t'.
Proof.
  intros E V. assert (X : forall u, clear_factors u = set_valid (tvalid u) (skel u)) by (intros []; reflexivity). rewrite !X, E, V. reflexivity.
Qed.

Section Posteriors.
Context {RD : Rounding} {AD : Adding} {SO : SetOrder}.
Variable b : bn.
Hypothesis WB : wf_bn b.
Hypothesis NN : nonneg_bn b.
Notation dom := (values_of b).
Notation W := (sumn (sizes b (bnames b))).
Notation cnear := (cnear b).
Notation tnear := (tnear b).

(** One item of evidence. *)
Lemma item_near k ev0 v e n ef old old' : ev_ok b ev0 -> supported b ev0 -> In (v, e) ev0 -> get_node b v = Ok n -> old = prior b v -> Forall2 (close k) old old' ->
  as_evidence v (dn_values n) e (Some old) = Ok ef ->
  exists ef', as_evidence_by rounded_ratio v (dn_values n) e (Some old') = Ok ef' /\ near dom (match e with Hard _ => 0 | Soft _ => 2 * k + 3 end) ef ef'.
Proof.
  intros EV SU I G EO F A. assert (G' := G). apply get_node_In in G as [Hn En].
  assert (Hv : In v (bnames b)) by (rewrite <- En; apply in_map, Hn). destruct e as [x|q].
  - exists ef. split; [exact A|]. exact (near_ev b WB ev0 EV v (Hard x) n ef I G' A).
  - cbn [as_evidence] in A. cbn [as_evidence_by]. destruct (Nat.eqb (length q) (length (dn_values n))) eqn:L; [|discriminate]. assert (LQ := proj2 EV _ _ I Hv). cbn in LQ. destruct LQ as [Lq Nq].
    destruct (SU v q I) as [Pos Zero]. destruct (soft_ratio_moves q old) as (l & El & Ml).
    { rewrite EO. unfold prior. rewrite map_length. exact Lq. } { exact Nq. } { rewrite EO. apply prior_nonneg; assumption. } { exact Pos. } { rewrite EO. exact Zero. }
    rewrite El in A. cbn [rbind] in A. inversion A; subst ef. destruct (ratio_close k q old old' l) as (l' & El' & Fl).
    { rewrite EO. unfold prior. rewrite map_length. exact Lq. } { exact Nq. } { exact F. } { exact El. }
    rewrite El'. cbn [rbind]. eexists. split; [reflexivity|]. destruct Ml as (L1 & L2 & L3 & _).
    assert (EV1 : ev_ok b [(v, Soft l)]).
    { split; [cbn; constructor; [tauto|constructor]|]. intros w e [E|[]] _. inversion E; subst. split; [|exact L3]. rewrite L1. unfold prior. apply map_length. }
    assert (N1 := near_ev b WB [(v, Soft l)] EV1 v (Soft l) n (mkF (mkArr [length q] l) [v] [(v, dn_values n)]) (or_introl eq_refl) G').
    cbn [as_evidence] in N1. assert (LL : length l = length q) by congruence. rewrite LL, L in N1. specialize (N1 eq_refl). destruct N1 as [WF _ _ _].
    split; [exact WF|reflexivity|reflexivity|]. cbn [pot]. split; [reflexivity|]. exact Fl.
Qed.

Lemma items_near (K : string -> nat) ev0 ev d d' t t' c s t1 : ev_ok b ev0 -> supported b ev0 -> incl ev ev0 ->
  (forall v, In v (dkeys ev) -> dget v d = Some (prior b v) /\ exists p, dget v d' = Some p /\ Forall2 (close (K v)) (prior b v) p) ->
  tnear c s t t' -> NoDup (dkeys (tnodes t)) -> each (add_tree_evidence b d) ev t = (t1, Ok tt) ->
  exists t1' c1, each (add_posterior_by rmul rounded_ratio b d') ev t' = (t1', Ok tt) /\ tnear c1 s t1 t1' /\ dkeys (tnodes t1) = dkeys (tnodes t) /\
    tot c1 (dkeys (tnodes t)) <= tot c (dkeys (tnodes t)) + sumn (map (fun p => match snd p with Hard _ => 1 | Soft _ => 2 * K (fst p) + 4 end) ev).
Proof.
  intros EV SU. revert t t' c. induction ev as [|[v e] ev IH]; intros t t' c I D TN ND E; cbn [each] in *.
  - inversion E; subst. exists t', c. split; [reflexivity|]. split; [exact TN|]. split; [reflexivity|cbn; lia].
  - destruct (D v (or_introl eq_refl)) as (D1 & p & D2 & Fp). destruct (add_tree_evidence b d (v, e) t) as [t2 [u|x]] eqn:A; [|discriminate]. unfold add_tree_evidence in A. cbv zeta in A. cbn [fst snd] in A. rewrite D1 in A.
    destruct (get_node b v) as [n|] eqn:G; cbn [rbind] in A; [|discriminate]. destruct (as_evidence v (dn_values n) e (Some (prior b v))) as [ef|] eqn:AE; cbn [rbind] in A; [|discriminate].
    destruct (item_near (K v) ev0 v e n ef (prior b v) p EV SU (I _ (or_introl eq_refl)) G eq_refl Fp AE) as (ef' & AE' & NE).
    rewrite <- assign_evidence_same, assign_evidence_put in A. destruct (put fmul _ ef (tnodes t)) as [l2|] eqn:P; [|discriminate]. inversion A; subst t2.
    destruct TN as [TA TV TNo TE]. destruct (put_near_by b _ _ _ _ _ _ _ _ NE TNo ND P) as (l2' & c2 & P' & F2 & K2 & T2 & _).
    destruct (IH (mkT l2 (tadj t) (tedges t) (tvalid t)) (mkT l2' (tadj t') (tedges t') (tvalid t')) c2) as (t1' & c1 & E1 & TN1 & K1 & T1).
    { intros y Hy. apply I. right; exact Hy. } { intros w Hw. apply D. right; exact Hw. } { split; assumption. } { cbn [tnodes]. rewrite K2. exact ND. } { exact E. }
    exists t1', c1. split; [|split; [exact TN1|]].
    + unfold add_posterior_by at 1. cbn [fst snd]. rewrite G, D2. cbn [rbind]. rewrite AE'. cbn [rbind]. rewrite assign_evidence_put, P'. exact E1.
    + cbn [tnodes] in *. rewrite K2 in *. split; [exact K1|]. cbn [map fst snd]. unfold sumn in *. cbn [fold_right]. destruct e; lia.
Qed.

(** The old marginals. *)
Lemma olds_near B s vs t t' r sv : incl vs (bnames b) -> jt_ok b t r sv -> tvalid t = true -> calibrated b t r sv (iweight b []) -> tnear (fun _ => B) s t t' ->
  old_marginals vs t = (t, Ok (map (fun v => (v, prior b v)) vs)) /\
  exists d', old_marginals_by rmul rmarg rinvert rnormalize vs t' = (t', Ok d') /\
    forall v, In v vs -> exists p, dget v d' = Some p /\ Forall2 (close (2 * (B + W) + length (dom v) + 1)) (prior b v) p.
Proof.
  intros I J V C TN. induction vs as [|v vs IH]; cbn [old_marginals old_marginals_by map].
  - split; [reflexivity|]. exists []. split; [reflexivity|]. intros v [].
  - destruct IH as (E1 & d' & E2 & D); [intros w Hw; apply I; right; exact Hw|]. assert (Hv := I v (or_introl eq_refl)).
    destruct (query_posterior b WB [] t r sv [v] NN (ev_nil b)) as (f & Ef & Rf); [constructor; [intros []|constructor]|exact J|exact V|exact C|apply (name_in_clique b t r sv); [exact J|exact Hv]|].
    rewrite Ef, E1. assert (DF := reports_single b WB f v [] Rf Hv). fold (prior b v) in DF. split; [rewrite DF; reflexivity|].
    destruct (query_near b _ _ _ _ _ _ TN V Ef) as (f' & Ef' & NF). unfold rounded_tree in Ef'. rewrite Ef', E2. exists ((v, data (pot f')) :: d'). split; [reflexivity|].
    intros w Hw. cbn [dget]. destruct (String.eqb_spec w v) as [->|NE].
    + eexists. split; [reflexivity|]. rewrite <- DF. assert (LD : length (data (pot f)) = length (dom v)) by (rewrite DF; unfold prior; apply map_length). rewrite LD in NF. apply (nr_pot _ _ _ _ NF).
    + apply D. destruct Hw as [->|Hw]; [destruct (NE eq_refl)|exact Hw].
Qed.

Theorem posteriors_rounded t r sv ev Q : jt_ok b t r sv -> ev_ok b ev -> incl (dkeys ev) (bnames b) -> supported b ev -> NoDup Q -> answers t Q ->
  exists ev' t1 f, meant b ev ev' /\ rounded_posteriors b ev t = (t1, Ok tt) /\ rounded_tree t1 Q = (t1, Ok f) /\ reports b f Q (potential_at f) /\
    forall q, is_inst b Q q -> close (desired_errors b (length (tnodes t)) Q ev) (posterior b ev' q) (potential_at f q).
Proof.
  intros J EV K SU ND A. destruct (reset_loaded b WB t r sv NN J) as (t1 & E1 & S1 & V1 & L1).
  assert (J1 : jt_ok b t1 r sv) by (eapply jt_ok_same; [reflexivity|symmetry; exact S1|exact J]).
  destruct (reset_near b WB NN t t1 (jo_nodup _ _ _ _ J) E1) as (t1' & c1 & E1' & TN1 & _ & K1 & T1).
  destruct (calculate_calibrates b WB t1 r sv (iweight b [])) as (t2 & E2 & S2 & V2 & C2); [exact J1|eapply loaded_ext; [exact L1|]; intros a _; apply iweight_nil, WB|].
  destruct (passes_near b t1 t1' c1 r sv t2 J1 TN1 V1 E2 V2) as (t2' & s & E2' & TN2). cbv zeta in TN2.
  assert (J2 : jt_ok b t2 r sv) by (eapply jt_ok_same; [reflexivity|symmetry; exact S2|exact J1]).
  destruct (olds_near _ _ (dkeys ev) t2 t2' r sv K J2 V2 C2 TN2) as (E3 & d' & E3' & D).
  assert (LT1 : length (tnodes t1) = length (tnodes t)). { rewrite <- (map_length fst (tnodes t1)), <- (map_length fst (tnodes t)). change (length (dkeys (tnodes t1)) = length (dkeys (tnodes t))). congruence. }
  destruct (reset_loaded b WB t2 r sv NN J2) as (t4 & E4 & S4 & V4 & L4).
  assert (J4 : jt_ok b t4 r sv) by (eapply jt_ok_same; [reflexivity|symmetry; exact S4|exact J2]).
  assert (E4' : exists t4' c4, rounded_reset b t2' = (t4', Ok tt) /\ tnear c4 (fun _ _ => 0) t4 t4' /\ dkeys (tnodes t4) = dkeys (tnodes t2) /\ tot c4 (dkeys (tnodes t4)) <= length (bnodes b)).
  { destruct (reset_near b WB NN t2 t4 (jo_nodup _ _ _ _ J2) E4) as (t4' & c4 & E4' & TN4 & _ & K4 & T4).
    assert (CC : clear_factors t2 = clear_factors t2').
    { apply clear_alike; [|symmetry; apply (tn_valid _ _ _ _ _ TN2)]. assert (X1 := reset_by_skel rmul b t). fold (rounded_reset b t) in X1. rewrite E1' in X1. cbn [fst] in X1.
      assert (X2 := calculate_by_skel rmul rmarg rinvert t1'). fold (rounded_messages t1') in X2. rewrite E2' in X2. cbn [fst] in X2. congruence. }
    exists t4', c4. split; [|split; [exact TN4|split; [exact K4|exact T4]]]. unfold rounded_reset, reset_factors_by in *. rewrite <- CC. exact E4'. }
  destruct E4' as (t4' & c4 & E4' & TN4 & K4 & T4).
  destruct (soft_translate b WB NN ev EV K SU (map (fun v => (v, prior b v)) (dkeys ev))) as (ev' & M & ET).
  { intros v Hv. clear - Hv. induction (dkeys ev) as [|w l IH]; [contradiction|]. cbn.
    destruct (String.eqb_spec v w) as [->|N]; [reflexivity|]. apply IH. destruct Hv; [congruence|assumption]. }
  assert (EV' := meant_ok b _ _ M EV). assert (K' : incl (dkeys ev') (bnames b)) by (rewrite (meant_keys b _ _ M); exact K).
  destruct (each_evidence b WB ev' ev' EV' (incl_refl _) K' t4 r sv _ J4 L4) as (t5 & E5 & S5 & V5 & L5). rewrite <- ET in E5.
  assert (J5 : jt_ok b t5 r sv) by (eapply jt_ok_same; [reflexivity|symmetry; exact S5|exact J4]).
  assert (DD : forall v, In v (dkeys ev) -> dget v (map (fun v => (v, prior b v)) (dkeys ev)) = Some (prior b v) /\
    exists p, dget v d' = Some p /\ Forall2 (close (tree_errors b (length (tnodes t)) [v] [])) (prior b v) p).
  { intros v Hv. split.
    - clear - Hv. induction (dkeys ev) as [|w l IH]; [contradiction|]. cbn.
      destruct (String.eqb_spec v w) as [->|N]; [reflexivity|]. apply IH. destruct Hv; [congruence|assumption].
    - destruct (D v Hv) as (p & Dp & Fp). exists p. split; [exact Dp|]. revert Fp. apply f2_mono. intros x y. apply close_mono.
      rewrite LT1. unfold tree_errors, passing_errors, sizes. cbn [length map prodn]. cbv zeta. set (m := length (tnodes t)). set (w := sumn _). set (x0 := tot c1 (dkeys (tnodes t1))) in *. nia. }
  destruct (items_near (fun v => tree_errors b (length (tnodes t)) [v] []) ev ev _ d' t4 t4' c4 _ t5 EV SU (incl_refl _) DD TN4 (jo_nodup _ _ _ _ J4) E5) as (t5' & c5 & E5' & TN5 & K5 & T5).
  assert (LT5 : length (tnodes t5) = length (tnodes t)). { rewrite <- LT1, <- (map_length fst (tnodes t5)), <- (map_length fst (tnodes t1)). change (length (dkeys (tnodes t5)) = length (dkeys (tnodes t1))). rewrite K5, K4. f_equal. apply skel_keys, S2. }
  destruct (messages_query b WB NN t5 t5' c5 r sv ev' Q (length (bnodes b) + sumn (map (item_errors b (length (tnodes t))) ev)) J5 TN5) as (t6 & f & E6 & Ef & _ & R & C).
  { congruence. } { eapply loaded_ext; [exact L5|]. intros a _. apply iweight_split; assumption. } { exact EV'. } { exact ND. }
  { eapply answers_skel; [|exact A]. congruence. } { rewrite K5. unfold item_errors. lia. }
  exists ev', t6, f. split; [exact M|]. split; [|split; [exact Ef|split; [exact R|]]].
  - unfold rounded_posteriors, set_posteriors_by. fold (rounded_reset b t). rewrite E1'. fold (rounded_messages t1'). rewrite E2', E3'. fold (rounded_reset b t2'). rewrite E4', E5'. exact E6.
  - rewrite LT5 in C. exact C.
Qed.
End Posteriors.
