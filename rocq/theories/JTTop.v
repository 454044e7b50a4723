(** create_jointree, evidence histories, soft evidence. *)
From Coq Require Import Field Relations.
From Verif Require Import Base BaseFacts NDArray NDArrayFacts SumCalc Factor FactorFacts Exact Spec SpecFacts VEProof VEProof2
  Order OrderSpec OrderProof JoinTree HuginPure Hugin JTProof JTProof2 JTBuild JTBuild2 JTBuild3.
From Verif Require Import TreeSpec.

(** ** create_jointree *)
Lemma create_ok {SO : SetOrder} b o order : suits b o -> nonneg_bn b -> order_or_default b order = Ok o ->
  exists t r sv, create_jointree b order = Ok t /\ jt_ok b t r sv /\ tvalid t = false /\ loaded b t (tables b).
Proof.
  intros [WB WG EM NE PO OP DC] NN EO.
  destruct (clusters_ok b WB WG EM o PO DC NE OP) as (cs & L & E1 & E2 & C & P).
  destruct (build_jt_ok b WB o PO DC NE cs L C P) as (r & J).
  destruct (loaded_all b WB (build_tree L) r (svL L) NN J) as (t & E & S & V & LD).
  - rewrite <- clear_build. apply trivial_clear.
  - rewrite <- clear_build. apply load_clear.
  - exists t, r, (svL L). unfold create_jointree. rewrite EO. cbn [rbind]. rewrite E1. cbn [rbind]. rewrite E2. cbn [rbind].
    split; [exact E|]. split; [eapply jt_ok_same; [reflexivity|symmetry; exact S|exact J]|].
    split; [rewrite V; apply tvalid_build|exact LD].
Qed.

(** ** The likelihood ratio of "all things considered" evidence *)
Lemma argmax_from_spec l : forall i besti best r m, argmax_from i besti best l = (r, m) ->
  (best <= m)%Qc /\ (forall x, In x l -> (x <= m)%Qc) /\
  (r = besti /\ m = best \/ exists j, nth_error l j = Some m /\ r = i + j).
Proof.
  induction l as [|x l IH]; cbn; intros i besti best r m E.
  - inversion E; subst. split; [apply Qcle_refl|]. split; [tauto|]. auto.
  - destruct (qltb best x) eqn:Q.
    + apply qltb_true in Q. destruct (IH _ _ _ _ _ E) as (A & B & D). split; [|split].
      * apply Qcle_trans with x; [apply Qclt_le_weak, Q|exact A].
      * intros y [<-|Hy]; [exact A|apply B, Hy].
      * right. destruct D as [[-> ->]|(j & Ej & ->)]; [exists 0; cbn; split; [reflexivity|lia]|exists (S j); cbn; split; [exact Ej|lia]].
    + apply qltb_false in Q. destruct (IH _ _ _ _ _ E) as (A & B & D). split; [exact A|]. split.
      * intros y [<-|Hy]; [apply Qcle_trans with best; assumption|apply B, Hy].
      * destruct D as [D|(j & Ej & ->)]; [left; exact D|right; exists (S j); cbn; split; [exact Ej|lia]].
Qed.

Lemma argmax_spec l : l <> [] -> exists r, argmax l = Some (r, nth r l 0%Qc) /\ r < length l /\ forall x, In x l -> (x <= nth r l 0%Qc)%Qc.
Proof.
  destruct l as [|x l]; [congruence|]. intros _. cbn [argmax]. destruct (argmax_from 1 0 x l) as [r m] eqn:E.
  destruct (argmax_from_spec _ _ _ _ _ _ E) as (A & B & D).
  assert (H : nth r (x :: l) 0%Qc = m /\ r < length (x :: l)).
  { destruct D as [[-> ->]|(j & Ej & ->)]; [cbn; split; [reflexivity|lia]|].
    cbn [Nat.add nth]. split; [apply nth_error_nth, Ej|]. cbn. apply -> Nat.succ_lt_mono. apply nth_error_Some. congruence. }
  destruct H as [H1 H2]. exists r. rewrite H1. split; [reflexivity|]. split; [exact H2|].
  intros y [<-|Hy]; [exact A|apply B, Hy].
Qed.

Lemma soft_ratio_moves q old : length q = length old -> Forall (fun x => 0 <= x)%Qc q -> Forall (fun x => 0 <= x)%Qc old ->
  (exists i, i < length q /\ (0 < nth i q 0)%Qc) ->
  (forall i, i < length q -> nth i old 0%Qc = 0%Qc -> nth i q 0%Qc = 0%Qc) ->
  exists l, soft_ratio q old = Ok l /\ moves old l q.
Proof.
  intros Lq Nq No (i0 & Hi0 & Pi0) Z.
  destruct (argmax_spec q) as (r & E & Hr & Mx); [intros ->; cbn in Hi0; lia|].
  assert (Pr : (0 < nth r q 0)%Qc).
  { apply Qclt_le_trans with (nth i0 q 0%Qc); [exact Pi0|]. apply Mx, nth_In, Hi0. }
  assert (Nr := Qc_pos_neq0 _ Pr).
  assert (Or : nth r old 0%Qc <> 0%Qc) by (intros K; apply Nr, Z; assumption).
  assert (Por : (0 < nth r old 0)%Qc).
  { apply Qc_nonneg_neq0_pos; [|exact Or]. apply nth_Forall_nonneg, No. }
  pose (g := fun i => if Nat.eqb i r then 1%Qc else if qeqb (nth i old 0%Qc) 0%Qc then 0%Qc
                      else (nth i q 0 / nth i old 0 * nth r old 0 / nth r q 0)%Qc).
  exists (map g (seq 0 (length q))). split.
  - unfold soft_ratio. rewrite E. apply mapM_total. intros i Hi. apply in_seq in Hi. unfold g.
    destruct (Nat.eqb i r); [reflexivity|].
    rewrite (nth_error_nth' old 0%Qc) by lia. rewrite (nth_error_nth' old 0%Qc) by lia.
    destruct (qeqb (nth i old 0%Qc) 0%Qc); [reflexivity|].
    rewrite (proj2 (qeqb_false _ _)) by exact Nr. reflexivity.
  - split; [rewrite map_length, seq_length; exact Lq|]. split; [exact Lq|]. split.
    + apply Forall_forall. intros x Hx. apply in_map_iff in Hx as (i & <- & Hi). unfold g.
      destruct (Nat.eqb i r); [discriminate|]. destruct (qeqb (nth i old 0%Qc) 0%Qc) eqn:Q; [apply Qcle_refl|].
      apply qeqb_false in Q. apply Qcdiv_nonneg; [|exact Pr]. apply Qcmult_nonneg; [|apply nth_Forall_nonneg, No].
      apply Qcdiv_nonneg; [apply nth_Forall_nonneg, Nq|]. apply Qc_nonneg_neq0_pos; [apply nth_Forall_nonneg, No|exact Q].
    + exists (nth r old 0 / nth r q 0)%Qc. split.
      * intros K. apply Or. replace (nth r old 0%Qc) with (nth r old 0 / nth r q 0 * nth r q 0)%Qc by (field; exact Nr).
        rewrite K. ring.
      * intros i Hi. rewrite (nth_indep (map g (seq 0 (length q))) 0%Qc (g 0)) by (rewrite map_length, seq_length; lia).
        rewrite map_nth, seq_nth by lia. cbn [Nat.add]. unfold g.
        destruct (Nat.eqb_spec i r) as [->|Ni]; [field; exact Nr|].
        destruct (qeqb (nth i old 0%Qc) 0%Qc) eqn:Q.
        -- apply qeqb_true in Q. rewrite (Z i) by (try lia; exact Q). ring.
        -- apply qeqb_false in Q. field. split; assumption.
Qed.

Section Soft.
Context {SO : SetOrder}.
Variable b : bn.
Hypothesis WB : wf_bn b.
Hypothesis NN : nonneg_bn b.
Notation dom := (values_of b).
Notation U := (bnames b).

Lemma ev_nil : ev_ok b []. Proof. split; [constructor|intros v e []]. Qed.

Lemma reports_order1 f v P : reports b f [v] P -> vorder f = [v].
Proof.
  intros (H1 & H2 & _). destruct (vorder f) as [|w l] eqn:E; [exfalso; apply (proj2 (H2 v)); left; reflexivity|].
  assert (w = v) by (destruct (proj1 (H2 w) (or_introl eq_refl)) as [?|[]]; congruence). subst w.
  destruct l as [|w l]; [reflexivity|]. exfalso. inversion H1 as [|? ? N _]; subst. apply N.
  destruct (proj1 (H2 w) (or_intror (or_introl eq_refl))) as [->|[]]. left; reflexivity.
Qed.

Lemma reports_single f v ev : reports b f [v] (posterior b ev) -> In v U ->
  data (pot f) = map (fun x => posterior b ev [(v, x)]) (dom v).
Proof.
  intros R Hv. assert (O := reports_order1 f v _ R). destruct R as (H1 & H2 & H3 & H4 & H5 & H6 & H7).
  rewrite O in *. cbn in H5. rewrite H5 in H6. cbn in H6. rewrite Nat.mul_1_r in H6.
  apply nth_ext with (d := 0%Qc) (d' := 0%Qc); [rewrite map_length; exact H6|].
  intros i Hi. rewrite H6 in Hi.
  assert (ND : NoDup (dom v)).
  { destruct (in_bnames b v Hv) as (n & Hn & <-). rewrite (values_of_node b WB n Hn). apply (wn_values _ _ (wb_nodes _ WB n Hn)). }
  rewrite (nth_indep (map _ _) 0%Qc (posterior b ev [(v, "")])) by (rewrite map_length; exact Hi).
  rewrite (map_nth (fun x => posterior b ev [(v, x)])). rewrite <- H7.
  - unfold potential_at. rewrite O. cbn [map]. rewrite (H3 v (or_introl eq_refl)).
    unfold look. cbn [dget]. rewrite eqb_refl_s. unfold aget. rewrite H5. cbn. rewrite position_idx.
    rewrite idx_nth by assumption. f_equal. lia.
  - split; [cbn; constructor; [tauto|constructor]|]. split; [reflexivity|].
    intros w x [E|[]]. inversion E; subst. apply nth_In, Hi.
Qed.

Lemma name_in_clique t r sv v : jt_ok b t r sv -> In v U -> in_clique t [v].
Proof.
  intros J Hv. destruct (in_bnames b v Hv) as (n & Hn & <-).
  destruct (jo_fam _ _ _ _ J (family n) (in_map _ _ _ Hn)) as (k & E). unfold home in E.
  destruct (find _ (vars_of t)) as [[k' c]|] eqn:EF; [|discriminate]. cbn in E. inversion E; subst k'.
  apply find_some in EF as [F1 F2]. cbn [snd] in F2. apply subset_spec in F2.
  exists k. split.
  - intros w [<-|[]]. unfold cvo. rewrite (In_dget k c); [apply F2; left; reflexivity| |exact F1].
    rewrite vars_keys. apply J.
  - rewrite <- vars_keys. apply in_map_iff. exists (k, c). auto.
Qed.

Lemma old_marginals_ok vs : incl vs U -> forall t r sv, holds b t r sv (iweight b []) ->
  exists t', old_marginals vs t = (t', Ok (map (fun v => (v, prior b v)) vs)) /\ holds b t' r sv (iweight b []).
Proof.
  induction vs as [|v vs IH]; intros I t r sv H; cbn [old_marginals map]; [eauto|].
  assert (Hv : In v U) by (apply I; left; reflexivity).
  destruct (marginals_holds b WB t r sv [] [v] NN ev_nil H) as [H' Q].
  destruct Q as (f & Ef & Rf); [constructor; [tauto|constructor]|apply (name_in_clique t r sv); [apply H|exact Hv]|].
  destruct (tmarginals t [v]) as [t1 m]. cbn [fst snd] in *. subst m.
  destruct (IH (fun w Hw => I w (or_intror Hw)) t1 r sv H') as (t2 & E2 & H2). rewrite E2.
  exists t2. split; [|exact H2]. rewrite (reports_single f v [] Rf Hv). reflexivity.
Qed.

Notation supported := (TreeSpec.supported b).
Notation meant := (TreeSpec.meant b).

Lemma posterior_nonneg ev q : ev_ok b ev -> (0 <= posterior b ev q)%Qc.
Proof.
  intros EV. unfold posterior. destruct (qeqb (mass b ev []) 0%Qc) eqn:E; [apply Qcle_refl|]. apply qeqb_false in E.
  apply Qcdiv_nonneg; [apply mass_nonneg; assumption|]. apply Qc_nonneg_neq0_pos; [apply mass_nonneg; assumption|exact E].
Qed.

Lemma prior_nonneg v : Forall (fun x => 0 <= x)%Qc (prior b v).
Proof. apply Forall_forall. intros x Hx. apply in_map_iff in Hx as (y & <- & _). apply posterior_nonneg, ev_nil. Qed.

Lemma meant_keys ev ev' : meant ev ev' -> dkeys ev' = dkeys ev.
Proof. unfold dkeys. induction 1; cbn [map fst]; congruence. Qed.

Lemma meant_ok ev ev' : meant ev ev' -> ev_ok b ev -> ev_ok b ev'.
Proof.
  intros M [ND H]. split; [rewrite (meant_keys _ _ M); exact ND|]. clear ND.
  induction M as [|v x ev ev' M IH|v q l ev ev' MV M IH]; intros w e Hw Hn; [contradiction| |].
  - destruct Hw as [E|Hw].
    + inversion E; subst. apply (H w (Hard x)); [left; reflexivity|exact Hn].
    + apply IH; [intros; apply H; [right|]; assumption|exact Hw|exact Hn].
  - destruct Hw as [E|Hw].
    + inversion E; subst. destruct MV as (L1 & L2 & L3 & _). split; [|exact L3]. rewrite L1. unfold prior. apply map_length.
    + apply IH; [intros; apply H; [right|]; assumption|exact Hw|exact Hn].
Qed.

Lemma soft_translate ev : ev_ok b ev -> incl (dkeys ev) U -> supported ev -> forall d,
  (forall v, In v (dkeys ev) -> dget v d = Some (prior b v)) ->
  exists ev', meant ev ev' /\ forall t, each (add_tree_evidence b d) ev t = each (add_tree_evidence b []) ev' t.
Proof.
  intros [_ EV] K SU d Hd. induction ev as [|[v e] ev IH].
  - exists []. split; [constructor|reflexivity].
  - destruct IH as (ev' & M & E).
    { intros w e' Hw. apply EV. right; exact Hw. } { intros w Hw. apply K. right; exact Hw. }
    { intros w q Hw. apply SU. right; exact Hw. } { intros w Hw. apply Hd. right; exact Hw. }
    assert (Hv : In v U) by (apply K; left; reflexivity).
    specialize (EV v e (or_introl eq_refl) Hv).
    destruct e as [x|q].
    + exists ((v, Hard x) :: ev'). split; [constructor; exact M|]. intros t. cbn [each].
      assert (Q : add_tree_evidence b d (v, Hard x) t = add_tree_evidence b [] (v, Hard x) t) by reflexivity.
      rewrite Q. destruct (add_tree_evidence b [] (v, Hard x) t) as [t1 [u|er]]; [apply E|reflexivity].
    + destruct (SU v q (or_introl eq_refl)) as [Pos Zero]. destruct EV as [Lq Nq].
      destruct (soft_ratio_moves q (prior b v)) as (l & El & Ml).
      * unfold prior. rewrite map_length. exact Lq. * exact Nq. * apply prior_nonneg. * exact Pos. * exact Zero.
      * exists ((v, Soft l) :: ev'). split; [constructor; [exact Ml|exact M]|]. intros t. cbn [each].
        assert (Q : add_tree_evidence b d (v, Soft q) t = add_tree_evidence b [] (v, Soft l) t).
        { unfold add_tree_evidence. cbn [fst snd]. destruct (in_bnames b v Hv) as (n & Hn & <-).
          rewrite (get_node_ok b WB n Hn). cbn [rbind]. assert (Hd' := Hd _ (or_introl eq_refl)). cbn [fst] in Hd'. rewrite Hd'. unfold as_evidence.
          rewrite <- (values_of_node b WB n Hn). rewrite Lq, Nat.eqb_refl, El. cbn [rbind dget].
          assert (Ll : length l = length (dom (dn_name n))) by (destruct Ml as (L1 & _); rewrite L1; apply map_length).
          rewrite Ll, Nat.eqb_refl. reflexivity. }
        rewrite Q. destruct (add_tree_evidence b [] (v, Soft l) t) as [t1 [u|er]]; [apply E|reflexivity].
Qed.

Lemma set_evidence_soft ev t r sv : ev_ok b ev -> incl (dkeys ev) U -> supported ev -> jt_ok b t r sv ->
  exists ev' t', meant ev ev' /\ set_evidence b ev true t = (t', Ok tt) /\ skel t' = skel t /\ tvalid t' = true /\
    calibrated b t' r sv (iweight b ev').
Proof.
  intros EV K SU J. destruct (reset_loaded b WB t r sv NN J) as (t1 & E1 & S1 & V1 & L1).
  assert (J1 : jt_ok b t1 r sv) by (eapply jt_ok_same; [reflexivity|symmetry; exact S1|exact J]).
  assert (H1 : holds b t1 r sv (iweight b [])).
  { split; [exact J1|]. right. split; [exact V1|]. eapply loaded_ext; [exact L1|]. intros a _. apply iweight_nil, WB. }
  destruct (calc_holds b WB t1 r sv [] NN ev_nil H1) as (t2 & E2 & H2 & V2).
  destruct (old_marginals_ok (dkeys ev) K t2 r sv H2) as (t3 & E3 & H3).
  assert (S2 : skel t2 = skel t1) by (assert (Q := skel_calc t1); rewrite E2 in Q; exact Q).
  assert (S3 : skel t3 = skel t2) by (assert (Q := skel_old (dkeys ev) t2); rewrite E3 in Q; exact Q).
  destruct (reset_loaded b WB t3 r sv NN (proj1 H3)) as (t4 & E4 & S4 & V4 & L4).
  assert (J4 : jt_ok b t4 r sv) by (eapply jt_ok_same; [reflexivity|symmetry; exact S4|apply H3]).
  destruct (soft_translate ev EV K SU (map (fun v => (v, prior b v)) (dkeys ev))) as (ev' & M & ET).
  { intros v Hv. clear - Hv. induction (dkeys ev) as [|w l IH]; [contradiction|]. cbn.
    destruct (String.eqb_spec v w) as [->|N]; [reflexivity|]. apply IH. destruct Hv; [congruence|assumption]. }
  assert (EV' := meant_ok _ _ M EV). assert (K' : incl (dkeys ev') U) by (rewrite (meant_keys _ _ M); exact K).
  destruct (each_evidence b WB ev' ev' EV' (incl_refl _) K' t4 r sv _ J4 L4) as (t5 & E5 & S5 & V5 & L5).
  assert (J5 : jt_ok b t5 r sv) by (eapply jt_ok_same; [reflexivity|symmetry; exact S5|exact J4]).
  destruct (calculate_calibrates b WB t5 r sv (iweight b ev') J5) as (t6 & E6 & S6 & V6 & C6).
  { eapply loaded_ext; [exact L5|]. intros a _. apply iweight_split; assumption. }
  exists ev', t6. split; [exact M|]. split.
  - unfold set_evidence. rewrite E1. cbn iota beta. rewrite E2. cbn iota beta. rewrite E3. cbn iota beta. rewrite E4. cbn iota beta.
    rewrite ET, E5. exact E6.
  - split; [congruence|]. auto.
Qed.

(** One evidence variable: the posterior is the desired one. *)
Lemma mass_soft v l x : In v U -> length l = length (dom v) -> In x (dom v) ->
  mass b [(v, Soft l)] [(v, x)] = (mass b [] [(v, x)] * nth (position x (dom v)) l 0)%Qc.
Proof.
  intros Hv Ll Hx. unfold mass. rewrite Qcmult_comm, <- qsum_mult_l.
  apply qsum_map_ext. intros s Hs. apply filter_In in Hs as [_ Hs]. cbn in Hs. apply andb_true_iff in Hs as [Hs _].
  apply String.eqb_eq in Hs. unfold weight.
  assert (E0 : qprod (map (fun n => evidence_weight [] n s) (bnodes b)) = 1%Qc).
  { induction (bnodes b) as [|n ns IH]; [reflexivity|]. cbn [map qprod]. rewrite IH. unfold evidence_weight. cbn [dget]. ring. }
  rewrite E0. destruct (in_bnames b v Hv) as (n & Hn & En).
  assert (E1 : qprod (map (fun n => evidence_weight [(v, Soft l)] n s) (bnodes b)) = nth (position x (dom v)) l 0%Qc).
  { assert (Vn := values_of_node b WB n Hn). rewrite En in Vn. assert (ND := wb_names _ WB). unfold bnames in ND. clear - Hn En ND Vn Hs.
    rewrite Vn. clear Vn. induction (bnodes b) as [|m ns IH]; [contradiction|]. cbn [map qprod]. cbn in ND. apply NoDup_cons_iff in ND as [N1 N2]. subst v.
    assert (O : forall ms, ~ In (dn_name n) (map dn_name ms) -> qprod (map (fun n0 => evidence_weight [(dn_name n, Soft l)] n0 s) ms) = 1%Qc).
    { induction ms as [|m' ms IHm]; intros NI; [reflexivity|]. cbn [map qprod]. rewrite IHm by (intros K; apply NI; right; exact K).
      unfold evidence_weight. cbn [dget]. rewrite eqb_neq_s by (intros K; apply NI; left; congruence). ring. }
    destruct Hn as [->|Hn].
    - rewrite O by exact N1. unfold evidence_weight. cbn [dget]. rewrite eqb_refl_s, Hs. ring.
    - rewrite IH by assumption. unfold evidence_weight. cbn [dget]. rewrite eqb_neq_s; [ring|].
      intros K. apply N1. rewrite K. apply in_map, Hn. }
  rewrite E1. ring.
Qed.

Lemma mass_zero ev q : ev_ok b ev -> mass b ev [] = 0%Qc -> mass b ev q = 0%Qc.
Proof.
  intros EV Z.
  assert (W : forall s, In s (states (bvars b)) -> (0 <= weight b ev s)%Qc).
  { intros s _. unfold weight, joint. apply Qcmult_nonneg; apply qprod_nonneg; apply Forall_forall; intros x Hx;
      apply in_map_iff in Hx as (n & <- & Hn).
    - unfold entry. apply nth_Forall_nonneg, NN, Hn.
    - unfold evidence_weight. destruct (dget (dn_name n) ev) as [[y|p]|] eqn:E; [|apply nth_Forall_nonneg|discriminate].
      + destruct (String.eqb _ _); [discriminate|apply Qcle_refl].
      + destruct EV as [_ EV]. apply dget_In in E. apply (EV _ _ E). apply in_map, Hn. }
  unfold mass in Z |- *. apply qsum_zero. intros s Hs. apply filter_In in Hs as [Hs _].
  assert (F : filter (agrees []) (states (bvars b)) = states (bvars b)).
  { clear. induction (states (bvars b)) as [|s l IH]; cbn; [reflexivity|]. rewrite IH. reflexivity. }
  rewrite F in Z. assert (A := qsum_nonneg_zero (map (weight b ev) (states (bvars b)))).
  assert (A1 : Forall (fun x => 0 <= x)%Qc (map (weight b ev) (states (bvars b)))).
  { apply Forall_forall. intros x Hx. apply in_map_iff in Hx as (s' & <- & Hs'). apply W, Hs'. }
  specialize (A A1 Z). rewrite Forall_forall in A. apply A, in_map, Hs.
Qed.

Lemma posterior_desired v l q x f : In v U -> In x (dom v) -> moves (prior b v) l q -> qsum q = 1%Qc ->
  reports b f [v] (posterior b [(v, Soft l)]) -> 
  posterior b [(v, Soft l)] [(v, x)] = nth (position x (dom v)) q 0%Qc.
Proof.
  intros Hv Hx (L1 & L2 & L3 & c & Nc & M) S R.
  assert (Lp : length (prior b v) = length (dom v)) by apply map_length.
  assert (ND : NoDup (dom v)).
  { destruct (in_bnames b v Hv) as (n & Hn & <-). rewrite (values_of_node b WB n Hn). apply (wn_values _ _ (wb_nodes _ WB n Hn)). }
  assert (EV : ev_ok b [(v, Soft l)]).
  { split; [cbn; constructor; [tauto|constructor]|]. intros w e [E|[]] _. inversion E; subst. split; [congruence|exact L3]. }
  assert (Pn : forall y, In y (dom v) -> nth (position y (dom v)) (prior b v) 0%Qc = posterior b [] [(v, y)]).
  { intros y Hy. rewrite position_idx. unfold prior. rewrite (nth_indep _ 0%Qc (posterior b [] [(v, "")])) by (rewrite map_length; apply idx_lt, Hy).
    rewrite (map_nth (fun x => posterior b [] [(v, x)])), nth_idx by exact Hy. reflexivity. }
  assert (M0 : mass b [] [] <> 0%Qc).
  { intros Z. assert (Pz : forall i, i < length (dom v) -> nth i (prior b v) 0%Qc = 0%Qc).
    { intros i Hi. unfold prior. rewrite (nth_indep _ 0%Qc (posterior b [] [(v, "")])) by (rewrite map_length; exact Hi).
      rewrite (map_nth (fun x => posterior b [] [(v, x)])). unfold posterior. rewrite Z. reflexivity. }
    assert (Q0 : qsum q = 0%Qc).
    { rewrite qsum_map_nth. apply bigsum_zero. intros i Hi.
      assert (K : (c * nth i q 0 = 0)%Qc) by (rewrite <- M by lia; rewrite Pz by lia; ring).
      apply Qcmult_integral in K as [K|K]; [contradiction|exact K]. }
    rewrite Q0 in S. apply (f_equal this) in S. discriminate. }
  set (m0 := mass b [] []) in *.
  assert (Mx : forall y, In y (dom v) -> mass b [(v, Soft l)] [(v, y)] = (m0 * c * nth (position y (dom v)) q 0)%Qc).
  { intros y Hy. rewrite mass_soft by (try assumption; congruence).
    assert (Py : mass b [] [(v, y)] = (m0 * posterior b [] [(v, y)])%Qc).
    { unfold posterior. fold m0. rewrite (proj2 (qeqb_false _ _)) by exact M0. field. exact M0. }
    rewrite Py, <- Pn by exact Hy. rewrite <- !Qcmult_assoc, M; [reflexivity|]. rewrite Lp, position_idx. apply idx_lt, Hy. }
  set (ev := [(v, Soft l)]) in *.
  assert (M1 : mass b ev [] <> 0%Qc).
  { intros Z. assert (Q0 : qsum q = 0%Qc).
    { rewrite qsum_map_nth. apply bigsum_zero. intros i Hi.
      assert (Hy : In (nth i (dom v) "") (dom v)) by (apply nth_In; lia).
      assert (K := Mx _ Hy). rewrite (mass_zero ev _ EV Z) in K. rewrite position_idx, idx_nth in K by (try lia; exact ND).
      symmetry in K. apply Qcmult_integral in K as [K|K]; [|exact K]. apply Qcmult_integral in K as [K|K]; contradiction. }
    rewrite Q0 in S. apply (f_equal this) in S. discriminate. }
  assert (PY : forall y, In y (dom v) -> posterior b ev [(v, y)] = (m0 * c / mass b ev [] * nth (position y (dom v)) q 0)%Qc).
  { intros y Hy. unfold posterior. rewrite (proj2 (qeqb_false _ _)) by exact M1. rewrite Mx by exact Hy. field. exact M1. }
  destruct (reports_distribution b WB f [v] ev NN EV) as (_ & D & _).
  { constructor; [tauto|constructor]. } { intros w [<-|[]]; exact Hv. } { exact R. }
  specialize (D M1). rewrite (reports_single f v ev R Hv) in D.
  assert (E : qsum (map (fun x => posterior b ev [(v, x)]) (dom v)) = (m0 * c / mass b ev [] * qsum q)%Qc).
  { rewrite qsum_map_nth, map_length. rewrite (qsum_map_nth q), L2, Lp, <- bigsum_mult_l. apply bigsum_ext. intros i Hi.
    rewrite (nth_indep _ 0%Qc (posterior b ev [(v, "")])) by (rewrite map_length; exact Hi).
    rewrite (map_nth (fun x => posterior b ev [(v, x)])). rewrite PY by (apply nth_In, Hi).
    rewrite position_idx, idx_nth by assumption. reflexivity. }
  rewrite E, S, Qcmult_1_r in D. rewrite PY by exact Hx. rewrite D. ring.
Qed.
End Soft.
