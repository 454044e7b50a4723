(** What set_evidence leaves in the tree. *)
From Coq Require Import Field Relations.
From Verif Require Import Base BaseFacts NDArray NDArrayFacts SumCalc Factor FactorFacts Exact Spec SpecFacts VEProof VEProof2
  Order OrderSpec OrderProof JoinTree HuginPure Hugin JTProof JTProof2 JTBuild JTBuild2 JTBuild3.
From Verif Require Import TreeSpec JTTop JTJunction JTHistory JTAgain JTAgain2 JTAgain3 ErrSpec ErrProof4 TreeErrSpec TreeErrProof LeftSpec.

(** argmax takes the first of the largest. *)
Lemma argmax_from_first l : forall i bi bv r m, argmax_from i bi bv l = (r, m) ->
  (r = bi /\ m = bv /\ forall j, j < length l -> (nth j l 0%Qc <= bv)%Qc) \/
  (exists j, r = i + j /\ j < length l /\ nth j l 0%Qc = m /\ (bv < m)%Qc /\ (forall j', j' < j -> (nth j' l 0%Qc < m)%Qc) /\ forall j', j' < length l -> (nth j' l 0%Qc <= m)%Qc).
Proof.
  induction l as [|y l IH]; intros i bi bv r m E; cbn [argmax_from] in E.
  - injection E as <- <-. left. split; [reflexivity|]. split; [reflexivity|]. intros j H. cbn in H. lia.
  - destruct (qltb bv y) eqn:Q.
    + apply qltb_true in Q. right. apply IH in E as [(-> & -> & H)|(j & -> & L & N & B & H1 & H2)].
      * exists 0. split; [lia|]. split; [cbn; lia|]. split; [reflexivity|]. split; [exact Q|]. split; [intros j' X; lia|].
        intros [|j'] X; cbn [nth]; [apply Qcle_refl|]. apply H. cbn in X. lia.
      * exists (S j). split; [lia|]. split; [cbn; lia|]. split; [exact N|]. split; [eapply Qclt_trans; eauto|]. split.
        -- intros [|j'] X; cbn [nth]; [exact B|]. apply H1. lia.
        -- intros [|j'] X; cbn [nth]; [now apply Qclt_le_weak|]. apply H2. cbn in X. lia.
    + apply qltb_false in Q. apply IH in E as [(-> & -> & H)|(j & -> & L & N & B & H1 & H2)].
      * left. split; [reflexivity|]. split; [reflexivity|]. intros [|j'] X; cbn [nth]; [exact Q|]. apply H. cbn in X. lia.
      * right. exists (S j). split; [lia|]. split; [cbn; lia|]. split; [exact N|]. split; [exact B|]. split.
        -- intros [|j'] X; cbn [nth]; [|apply H1; lia]. eapply Qcle_lt_trans; eauto.
        -- intros [|j'] X; cbn [nth]; [|apply H2; cbn in X; lia]. apply Qclt_le_weak. eapply Qcle_lt_trans; eauto.
Qed.

Lemma argmax_first q r m : argmax q = Some (r, m) ->
  r < length q /\ nth r q 0%Qc = m /\ (forall i, i < length q -> (nth i q 0%Qc <= m)%Qc) /\ forall i, i < r -> (nth i q 0%Qc < m)%Qc.
Proof.
  destruct q as [|x q]; [discriminate|]. cbn [argmax]. intros E. injection E as E. apply argmax_from_first in E as [(-> & -> & H)|(j & -> & L & N & B & H1 & H2)].
  - split; [cbn; lia|]. split; [reflexivity|]. split; [|intros i X; lia]. intros [|i] X; cbn [nth]; [apply Qcle_refl|]. apply H. cbn in X. lia.
  - split; [cbn; lia|]. split; [exact N|]. split.
    + intros [|i] X; cbn [nth]; [now apply Qclt_le_weak|]. apply H2. cbn in X. lia.
    + intros [|i] X; cbn [nth]; [exact B|]. apply H1. lia.
Qed.

Lemma soft_ratio_ratios q p l : length p = length q -> soft_ratio q p = Ok l -> ratios p q l.
Proof.
  intros L E. unfold soft_ratio in E. destruct (argmax q) as [[r m]|] eqn:A; [|discriminate].
  apply argmax_first in A as (Lr & Nr & H1 & H2). assert (LL := mapM_length _ _ _ E). rewrite seq_length in LL.
  split; [exact LL|]. exists r. split; [exact Lr|]. split; [intros i Hi; rewrite Nr; auto|]. split; [intros i Hi; rewrite Nr; auto|].
  intros i Hi. apply mapM_ok in E. 
  assert (X : forall (f : nat -> res Qc) n s ys, Forall2 (fun a y => f a = Ok y) (seq s n) ys -> forall j, j < n -> f (s + j) = Ok (nth j ys 0%Qc)).
  { clear. intros f. induction n as [|n IH]; intros s ys F j Hj; [lia|]. cbn [seq] in F. inversion F as [|? y ? ys' F1 F2]; subst.
    destruct j as [|j]; cbn [nth]; [now rewrite Nat.add_0_r|]. replace (s + S j) with (S s + j) by lia. apply IH; [exact F2|lia]. }
  specialize (X _ _ _ _ E i Hi). cbn [Nat.add] in X. destruct (Nat.eqb i r); [congruence|].
  rewrite (nth_error_nth' p 0%Qc) in X by lia. rewrite (nth_error_nth' p 0%Qc) in X by lia.
  destruct (qeqb (nth i p 0%Qc) 0)%Qc; [congruence|]. destruct (qeqb m 0)%Qc; [discriminate|]. rewrite Nr. congruence.
Qed.

Section Left.
Context {SO : SetOrder}.
Variable b : bn.
Hypothesis WB : wf_bn b.
Hypothesis NN : nonneg_bn b.
Variable post : bool.
Notation dom := (values_of b).
Notation U := (bnames b).

(** One item. *)
Lemma item_left v e (d : dict (list Qc)) : match e with Soft q => Forall (fun x => 0 <= x)%Qc q | Hard _ => True end ->
  (In v U -> dget v d = if post then Some (prior b v) else None) -> (forall x, ~ item_fault b post v e x) ->
  In v U /\ exists e', read_as b post [(v, e)] [(v, e')] /\
    match e' with Hard x => In x (dom v) | Soft l => length l = length (dom v) /\ Forall (fun x => 0 <= x)%Qc l end /\
    forall t, add_tree_evidence b d (v, e) t = add_tree_evidence b [] (v, e') t.
Proof.
  intros Nq Hd NF. destruct (In_dec_s v U) as [Hv|Hv]; [|destruct (NF PlainException); apply I_unknown, Hv]. split; [exact Hv|].
  specialize (Hd Hv). destruct (in_bnames b v Hv) as (n & Hn & En).
  assert (VN := values_of_node b WB n Hn). rewrite En in VN.
  assert (GN := get_node_ok b WB n Hn). rewrite En in GN.
  assert (NE : dom v <> []) by (rewrite VN; apply (wn_values _ _ (wb_nodes _ WB n Hn))).
  destruct e as [x|q].
  - destruct (In_dec_s x (dom v)) as [Hx|Hx]; [|destruct (NF ValueError); apply I_improper; assumption].
    exists (Hard x). split; [apply read_hard, read_nil|]. split; [exact Hx|reflexivity].
  - destruct (Nat.eq_dec (length q) (length (dom v))) as [Lq|Lq]; [|destruct (NF ValueError); apply I_improper; assumption].
    assert (Qn : q <> []) by (intros ->; destruct (dom v); [contradiction|discriminate]).
    destruct post eqn:EP.
    2: { exists (Soft q). split; [apply read_soft, read_nil; reflexivity|]. split; [auto|].
         intros t. unfold add_tree_evidence. cbn [fst snd]. rewrite Hd. reflexivity. }
    assert (Lp : length (prior b v) = length (dom v)) by (unfold prior; apply map_length).
    destruct (argmax_spec q Qn) as (r & A & Lr & _). set (m := nth r q 0%Qc) in *.
    destruct (proj2 (soft_outcome v (dom v) q (prior b v) Lq Lp) r m A) as [(Z & (i & Ni & Li & Pi) & E)|(Z & f & E)].
    + exfalso. destruct (argmax_all_zero q r m Qn Nq A Z) as [AZ ->]. apply (NF NonFinite), (I_zero _ _ _ _ q i); auto; lia.
    + unfold as_evidence in E. rewrite (proj2 (Nat.eqb_eq _ _) Lq) in E. destruct (soft_ratio q (prior b v)) as [l|] eqn:ES; [|discriminate].
      destruct (soft_ratio_nonneg q (prior b v) l Nq (prior_nonneg b WB NN v) ES) as [Ll Nl].
      exists (Soft l). split; [apply read_post; [reflexivity|apply soft_ratio_ratios; [congruence|exact ES]|apply read_nil]|].
      split; [split; [congruence|exact Nl]|]. intros t. unfold add_tree_evidence, as_evidence. cbn [fst snd]. rewrite GN. cbn [rbind].
      rewrite Hd, <- VN, (proj2 (Nat.eqb_eq _ _) Lq), ES. cbn [rbind dget]. rewrite Ll, Lq, Nat.eqb_refl. reflexivity.
Qed.

Lemma read_cons v e e' l l' : read_as b post [(v, e)] [(v, e')] -> read_as b post l l' -> read_as b post ((v, e) :: l) ((v, e') :: l').
Proof. intros R R'. inversion R; subst; [apply read_hard|apply read_soft|apply read_post]; try assumption; reflexivity. Qed.

Lemma items_left (d : dict (list Qc)) l : NoDup (dkeys l) -> weights_ok l ->
  (forall v, In v (dkeys l) -> In v U -> dget v d = if post then Some (prior b v) else None) ->
  (forall w y z, In (w, y) l -> ~ item_fault b post w y z) ->
  exists l', read_as b post l l' /\ ev_ok b l' /\ incl (dkeys l') U /\ dkeys l' = dkeys l /\ forall t, each (add_tree_evidence b d) l t = each (add_tree_evidence b []) l' t.
Proof.
  induction l as [|[v e] l IH]; intros ND W Hd NF.
  - exists []. split; [apply read_nil|]. split; [apply ev_nil|]. split; [intros ? []|]. split; reflexivity.
  - cbn in ND. apply NoDup_cons_iff in ND as [Nv ND].
    assert (We : match e with Soft q => Forall (fun x => 0 <= x)%Qc q | Hard _ => True end) by (destruct e; [exact I|]; apply (W v); left; reflexivity).
    destruct (item_left v e d We (Hd v (or_introl eq_refl)) (fun x => NF v e x (or_introl eq_refl))) as (Hv & e' & R & OK & E).
    destruct IH as (l' & R' & EV' & K' & KE & Ee); [exact ND|intros w q Hw; apply (W w); right; exact Hw|intros w Hw; apply Hd; right; exact Hw|intros w y z H; apply NF; right; exact H|].
    exists ((v, e') :: l'). split; [apply read_cons; assumption|]. split; [|split; [|split]].
    + split; [change (NoDup (v :: dkeys l')); rewrite KE; constructor; assumption|]. intros w y [X|X] Hw; [injection X as <- <-; exact OK|]. exact (proj2 EV' w y X Hw).
    + intros w [<-|Hw]; [exact Hv|apply K', Hw].
    + change (v :: dkeys l' = v :: dkeys l). rewrite KE. reflexivity.
    + intros t. cbn [each]. rewrite E. destruct (add_tree_evidence b [] (v, e') t) as [t1 [u|x]]; [apply Ee|reflexivity].
Qed.

Lemma item_fails v e x (d : dict (list Qc)) : match e with Soft q => Forall (fun x => 0 <= x)%Qc q | Hard _ => True end ->
  (In v U -> dget v d = if post then Some (prior b v) else None) -> item_fault b post v e x -> exists y, forall t, add_tree_evidence b d (v, e) t = (t, Err y).
Proof.
  intros Nq Hd F. destruct (item_outcome b WB NN post v e d Nq Hd) as [(y & _ & E)|(N & _)]; [eauto|]. destruct (N x F).
Qed.

(** What [read_as] gives is determined. *)
Lemma ratios_one p q l l' : ratios p q l -> ratios p q l' -> l = l'.
Proof.
  intros (L & r & Lr & M1 & M2 & H) (L' & r' & Lr' & M1' & M2' & H').
  assert (r = r').
  { destruct (Nat.lt_total r r') as [X|[X|X]]; [|exact X|]; exfalso.
    - specialize (M2' r X). specialize (M1 r' Lr'). apply (Qclt_not_le _ _ M2' M1).
    - specialize (M2 r' X). specialize (M1' r Lr). apply (Qclt_not_le _ _ M2 M1'). }
  subst r'. apply (nth_ext _ _ 0%Qc 0%Qc); [congruence|]. intros i Hi. rewrite H, H' by congruence. reflexivity.
Qed.

Lemma read_one l l1 l2 : read_as b post l l1 -> read_as b post l l2 -> l1 = l2.
Proof.
  intros R. revert l2. induction R; intros l2 R2; inversion R2; subst; try congruence; try (f_equal; auto; fail).
  - f_equal; [|auto]. do 2 f_equal. eapply ratios_one; eauto.
Qed.

Lemma old_holds vs : forall t r sv, holds b t r sv (iweight b []) -> holds b (fst (old_marginals vs t)) r sv (iweight b []).
Proof.
  induction vs as [|v vs IH]; intros t r sv H; [exact H|]. cbn [old_marginals].
  destruct (marginals_holds b WB t r sv [] [v] NN (ev_nil b) H) as [H' _]. destruct (tmarginals t [v]) as [t1 [f|e]]; cbn [fst] in H' |- *; [|exact H'].
  specialize (IH t1 r sv H'). destruct (old_marginals vs t1) as [t2 [d|e]]; exact IH.
Qed.

Lemma loaded_left (d : dict (list Qc)) l l' t r sv ev' : NoDup (dkeys (l ++ l')) -> weights_ok (l ++ l') -> jt_ok b t r sv -> loaded b t (iweight b []) -> tvalid t = false ->
  (forall v, In v (dkeys (l ++ l')) -> In v U -> dget v d = if post then Some (prior b v) else None) ->
  (forall w y z, In (w, y) l -> ~ item_fault b post w y z) ->
  match l' with [] => True | (v, e) :: _ => exists z, item_fault b post v e z end -> read_as b post l ev' ->
  ev_ok b ev' /\ holds b (fst (match each (add_tree_evidence b d) (l ++ l') t with (t3, Ok _) => calculate_messages t3 | (t3, Err e) => (t3, Err e) end)) r sv (iweight b ev').
Proof.
  intros ND W J L V Hd NF Fl R. destruct (items_left d l) as (ev1 & R1 & EV & K & KE & E).
  { unfold dkeys in ND |- *. rewrite map_app in ND. apply NoDup_app_l in ND. exact ND. }
  { intros w q Hw. apply (W w). apply in_or_app. left; exact Hw. }
  { intros w Hw. apply Hd. unfold dkeys in *. rewrite map_app. apply in_or_app. left; exact Hw. }
  { exact NF. }
  assert (ev1 = ev') by (eapply read_one; eauto). subst ev1. split; [exact EV|].
  destruct (each_evidence b WB ev' ev' EV (incl_refl _) K t r sv _ J L) as (t5 & E5 & S5 & V5 & L5).
  assert (J5 : jt_ok b t5 r sv) by (eapply jt_ok_same; [reflexivity|symmetry; exact S5|exact J]).
  assert (L5' : loaded b t5 (iweight b ev')).
  { eapply loaded_ext; [exact L5|]. intros a Ra. cbn beta. rewrite <- (iweight_nil b WB a). apply iweight_split; assumption. }
  assert (H5 : holds b t5 r sv (iweight b ev')) by (split; [exact J5|right; split; [congruence|exact L5']]).
  rewrite (JTHistory.each_app (add_tree_evidence b d) l l' t t5) by (rewrite E; exact E5).
  destruct l' as [|[v e] l'].
  - cbn [each]. destruct (calc_holds b WB t5 r sv ev' NN EV H5) as (t6 & E6 & H6 & _). rewrite E6. exact H6.
  - destruct Fl as (z & F). destruct (item_fails v e z d) as (y & Ey).
    + destruct e; [exact I|]. apply (W v). apply in_or_app. right. left. reflexivity.
    + apply Hd. unfold dkeys. rewrite map_app. apply in_or_app. right. left. reflexivity.
    + exact F.
    + cbn [each]. rewrite Ey. exact H5.
Qed.

Lemma set_left t r sv ev ev' : NoDup (dkeys ev) -> weights_ok ev -> jt_ok b t r sv -> leaves b post ev ev' ->
  ev_ok b ev' /\ holds b (fst (set_evidence b ev post t)) r sv (iweight b ev').
Proof.
  intros ND W J LV.
  destruct (reset_loaded b WB t r sv NN J) as (t1 & E1 & S1 & V1 & L1).
  assert (J1 : jt_ok b t1 r sv) by (eapply jt_ok_same; [reflexivity|symmetry; exact S1|exact J]).
  assert (L1' : loaded b t1 (iweight b [])) by (eapply loaded_ext; [exact L1|]; intros a _; apply iweight_nil, WB).
  assert (H1 : holds b t1 r sv (iweight b [])) by (split; [exact J1|right; auto]).
  unfold set_evidence. rewrite E1. inversion LV as [v P Hv Nv EQ|l l' e0 K El NF Fl R EQ].
  - subst ev'. split; [apply ev_nil|]. rewrite P. destruct (calc_holds b WB t1 r sv [] NN (ev_nil b) H1) as (t2 & E2 & H2 & V2). rewrite E2.
    assert (Y := old_unknown b WB NN (dkeys ev) (ex_intro _ v (conj Hv Nv)) t2 r sv H2). assert (O := old_holds (dkeys ev) t2 r sv H2).
    destruct (old_marginals (dkeys ev) t2) as [t3 [d|y]]; cbn [snd] in Y; [discriminate|]. exact O.
  - subst e0 ev. destruct (Bool.bool_dec post true) as [EP|EP]; [|apply Bool.not_true_is_false in EP]; rewrite EP.
    + destruct (calc_holds b WB t1 r sv [] NN (ev_nil b) H1) as (t2 & E2 & H2 & V2). rewrite E2.
      specialize (K EP). destruct (old_marginals_ok b WB NN (dkeys (l ++ l')) K t2 r sv H2) as (t3 & E3 & H3). rewrite E3.
      destruct (reset_loaded b WB t3 r sv NN (proj1 H3)) as (t4 & E4 & S4 & V4 & L4). rewrite E4.
      assert (J4 : jt_ok b t4 r sv) by (eapply jt_ok_same; [reflexivity|symmetry; exact S4|apply H3]).
      apply loaded_left; try assumption.
      * eapply loaded_ext; [exact L4|]. intros a _. apply iweight_nil, WB.
      * rewrite EP. intros v Hv _. clear - Hv. induction (dkeys (l ++ l')) as [|w m IH]; [contradiction|]. cbn.
        destruct (String.eqb_spec v w) as [->|N]; [reflexivity|]. apply IH. destruct Hv; [congruence|assumption].
    + apply loaded_left; try assumption. rewrite EP. reflexivity.
Qed.

(** Every call leaves something. *)
Lemma leaves_total ev : NoDup (dkeys ev) -> weights_ok ev -> exists ev', leaves b post ev ev'.
Proof.
  intros ND W. assert (D : (post = true -> incl (dkeys ev) U) \/ exists v, post = true /\ In v (dkeys ev) /\ ~ In v U).
  { destruct post; [|left; discriminate]. destruct (subset (dkeys ev) U) eqn:S; [left; intros _; apply subset_spec, S|]. right.
    revert S. unfold subset. generalize (dkeys ev). induction l as [|w l IH]; cbn; [discriminate|]. destruct (mem w U) eqn:M; cbn.
    - intros K. destruct (IH K) as (v & A & B & C). eauto.
    - intros _. exists w. split; [reflexivity|]. split; [auto|]. apply mem_nIn, M. }
  destruct D as [K|(v & P & Hv & Nv)]; [|exists []; apply (L_nothing _ _ _ v); assumption].
  assert (X : exists l l' ev', ev = l ++ l' /\ (forall w y z, In (w, y) l -> ~ item_fault b post w y z) /\
    match l' with [] => True | (v, e) :: _ => exists z, item_fault b post v e z end /\ read_as b post l ev').
  { clear K. set (d := if post then map (fun v => (v, prior b v)) (dkeys ev) else []).
    assert (Hd : forall v, In v (dkeys ev) -> In v U -> dget v d = if post then Some (prior b v) else None).
    { unfold d. destruct post; [|reflexivity]. intros v Hv _. clear - Hv. induction (dkeys ev) as [|w m IH]; [contradiction|]. cbn.
      destruct (String.eqb_spec v w) as [->|N]; [reflexivity|]. apply IH. destruct Hv; [congruence|assumption]. }
    generalize d Hd. clear d Hd. intros d Hd. induction ev as [|[v e] ev IH].
    - exists [], [], []. split; [reflexivity|]. split; [intros ? ? ? []|]. split; [exact I|apply read_nil].
    - assert (We : match e with Soft q => Forall (fun x => 0 <= x)%Qc q | Hard _ => True end) by (destruct e; [exact I|]; apply (W v); left; reflexivity).
      destruct (item_outcome b WB NN post v e d We (Hd v (or_introl eq_refl))) as [(x & F & _)|(NF & _)].
      + exists [], ((v, e) :: ev), []. split; [reflexivity|]. split; [intros ? ? ? []|]. split; [eauto|apply read_nil].
      + destruct (item_left v e d We (Hd v (or_introl eq_refl)) NF) as (_ & e' & R & _).
        destruct IH as (l & l' & ev' & -> & N' & F' & R').
        * cbn in ND. apply NoDup_cons_iff in ND as [_ ND]. exact ND.
        * intros w q Hw. apply (W w). right; exact Hw.
        * intros w Hw. apply Hd. right; exact Hw.
        * exists ((v, e) :: l), l', ((v, e') :: ev'). split; [reflexivity|]. split; [|split; [exact F'|apply read_cons; assumption]].
          intros w y z [Y|Y]; [injection Y as <- <-; apply NF|exact (N' w y z Y)]. }
  destruct X as (l & l' & ev' & E & N & F & R). exists ev'. eapply L_front; eauto.
Qed.
End Left.

Section Lives.
Context {SO : SetOrder}.

Lemma lives_holds b0 t b ev : lives b0 t b ev -> wf_bn b /\ nonneg_bn b /\ ev_ok b ev /\ exists r sv, jt_ok b0 t r sv /\ holds b t r sv (iweight b ev).
Proof.
  induction 1 as [order o t EO SU NN EC|b ev post t b1 ev1 ev' R IH SA WB NN ND W LV|b t b1 ev1 R IH SA WB NN|t b ev R IH|Q t b ev R IH].
  - destruct (create_ok b0 o order SU NN EO) as (t' & r & sv & E & J & V & L). rewrite EC in E. inversion E; subst t'.
    assert (WB := su_bn _ _ SU). split; [exact WB|]. split; [exact NN|]. split; [apply ev_nil|]. exists r, sv. split; [exact J|].
    split; [exact J|]. right. split; [exact V|]. eapply loaded_ext; [exact L|]. intros a _. apply iweight_nil, WB.
  - destruct IH as (_ & _ & _ & r & sv & J & _). assert (F := same_arcs_families _ _ SA).
    assert (Jb : jt_ok b t r sv) by (eapply jt_ok_same; [exact F|reflexivity|exact J]).
    destruct (set_left b WB NN post t r sv ev ev' ND W Jb LV) as [EV H]. split; [exact WB|]. split; [exact NN|]. split; [exact EV|].
    exists r, sv. split; [|exact H]. eapply jt_ok_same; [reflexivity|symmetry; apply skel_set_evidence|exact J].
  - destruct IH as (_ & _ & _ & r & sv & J & _). assert (F := same_arcs_families _ _ SA).
    assert (Jb : jt_ok b t r sv) by (eapply jt_ok_same; [exact F|reflexivity|exact J]).
    destruct (reset_loaded b WB t r sv NN Jb) as (t' & E & S & V & L). rewrite E. cbn [fst].
    split; [exact WB|]. split; [exact NN|]. split; [apply ev_nil|]. exists r, sv.
    split; [eapply jt_ok_same; [reflexivity|symmetry; exact S|exact J]|].
    split; [eapply jt_ok_same; [reflexivity|symmetry; exact S|exact Jb]|]. right. split; [exact V|].
    eapply loaded_ext; [exact L|]. intros a _. apply iweight_nil, WB.
  - destruct IH as (WB & NN & EV & r & sv & J & H). split; [exact WB|]. split; [exact NN|]. split; [exact EV|]. exists r, sv.
    split; [eapply jt_ok_same; [reflexivity|symmetry; apply skel_calc|exact J]|].
    destruct (calc_holds b WB t r sv ev NN EV H) as (t' & E & H' & _). rewrite E. exact H'.
  - destruct IH as (WB & NN & EV & r & sv & J & H). split; [exact WB|]. split; [exact NN|]. split; [exact EV|]. exists r, sv.
    split; [eapply jt_ok_same; [reflexivity|symmetry; apply skel_marginals|exact J]|]. apply (marginals_holds b WB t r sv ev Q NN EV H).
Qed.

(** ... and is a history in the sense of TreeSpec.v. *)
Lemma lives_reaches b0 t b ev : lives b0 t b ev -> exists k, reaches b0 t k.
Proof.
  induction 1 as [order o t EO SU NN EC|b ev post t b1 ev1 ev' R [k IH] SA WB NN ND W LV|b t b1 ev1 R [k IH] SA WB NN|t b ev R [k IH]|Q t b ev R [k IH]]; eexists.
  - eapply R_create; eassumption.
  - eapply R_any; exact IH.
  - eapply R_reset; eassumption.
  - eapply R_messages; exact IH.
  - eapply R_query; exact IH.
Qed.

Lemma lives_report b0 t b ev Q : lives b0 t b ev -> NoDup Q -> answers t Q -> exists f, snd (tmarginals t Q) = Ok f /\ reports b f Q (posterior b ev).
Proof.
  intros L ND A. destruct (lives_holds _ _ _ _ L) as (WB & NN & EV & r & sv & J & H).
  apply (marginals_holds b WB t r sv ev Q NN EV H); [exact ND|apply answers_in_clique, A].
Qed.

Lemma lives_refuse b0 t b ev Q e : lives b0 t b ev -> (snd (tmarginals t Q) = Err e <-> e = ValueError /\ ~ answers t Q).
Proof.
  intros L. destruct (lives_holds _ _ _ _ L) as (WB & NN & EV & r & sv & J & H).
  assert (A2 : ~ answers t Q -> snd (tmarginals t Q) = Err ValueError).
  { intros N. assert (ND : NoDup (dkeys (tnodes t))) by apply J. unfold tmarginals. destruct (tvalid t).
    - cbn [snd]. rewrite (unanswered t t Q eq_refl N ND). reflexivity.
    - destruct (calc_holds b WB t r sv ev NN EV H) as (t' & E & _). rewrite E. cbn [snd]. rewrite (unanswered t t' Q); [reflexivity| |exact N|exact ND].
      assert (X := skel_calc t). rewrite E in X. exact X. }
  split.
  - intros E. assert (N : ~ answers t Q).
    { intros A. apply answers_in_clique in A. destruct (calc_holds b WB t r sv ev NN EV H) as (t' & E' & H' & V'). assert (SK := skel_calc t). rewrite E' in SK. cbn [fst] in SK.
      destruct (tvalid t) eqn:V.
      - destruct H as (J' & [[_ C]|[X _]]); [|congruence].
        destruct (query_ok b WB t r sv _ Q J' C V A (iweight_ext b WB ev)) as (f & Ef & _). rewrite Ef in E. discriminate.
      - destruct H' as (J' & [[_ C']|[X _]]); [|congruence].
        destruct (query_ok b WB t' r sv _ Q J' C' V' (in_clique_skel t t' Q (eq_sym SK) A) (iweight_ext b WB ev)) as (f & Ef & _).
        unfold tmarginals in Ef, E. rewrite V' in Ef. rewrite V, E' in E. cbn [snd] in E. injection Ef as Ef. rewrite Ef in E. discriminate. }
    rewrite (A2 N) in E. injection E as <-. auto.
  - intros [-> N]. apply A2, N.
Qed.

Lemma lives_next b0 t b1 ev1 b ev post : lives b0 t b1 ev1 -> same_arcs b0 b -> wf_bn b -> nonneg_bn b -> NoDup (dkeys ev) -> weights_ok ev ->
  exists ev', leaves b post ev ev' /\ lives b0 (fst (set_evidence b ev post t)) b ev'.
Proof.
  intros L SA WB NN ND W. destruct (leaves_total b WB NN post ev ND W) as (ev' & LV). exists ev'. split; [exact LV|]. eapply V_evidence; eauto.
Qed.
End Lives.

Lemma front_one (P : string * evid -> Prop) (l1 : evidence) : forall l2 m1 m2, l1 ++ m1 = l2 ++ m2 -> (forall p, In p l1 -> ~ P p) -> (forall p, In p l2 -> ~ P p) ->
  match m1 with [] => True | p :: _ => P p end -> match m2 with [] => True | p :: _ => P p end -> l1 = l2.
Proof.
  induction l1 as [|p l1 IH]; intros l2 m1 m2 E N1 N2 F1 F2.
  - destruct l2 as [|p2 l2]; [reflexivity|]. cbn in E. subst m1. destruct (N2 p2 (or_introl eq_refl) F1).
  - destruct l2 as [|p2 l2]; [cbn in E; subst m2; destruct (N1 p (or_introl eq_refl) F2)|]. cbn [app] in E. inversion E; subst p2. f_equal.
    eapply IH; eauto; intros q Hq; [apply N1|apply N2]; right; exact Hq.
Qed.

Lemma leaves_one b post ev l1 l2 : leaves b post ev l1 -> leaves b post ev l2 -> l1 = l2.
Proof.
  intros L1 L2. inversion L1 as [v P Hv Nv|k1 m1 e1 K1 E1 N1 F1 R1]; inversion L2 as [w P' Hw Nw|k2 m2 e2 K2 E2 N2 F2 R2]; subst.
  - reflexivity.
  - destruct (Nv (K2 eq_refl v Hv)).
  - destruct (Nw (K1 eq_refl w Hw)).
  - assert (k1 = k2).
    { apply (front_one (fun p => exists z, item_fault b post (fst p) (snd p) z) k1 k2 m1 m2 E2).
      - intros [w y] H (z & F). exact (N1 w y z H F).
      - intros [w y] H (z & F). exact (N2 w y z H F).
      - destruct m1 as [|[v e] m1]; exact F1.
      - destruct m2 as [|[v e] m2]; exact F2. }
    subst k2. eapply read_one; eauto.
Qed.

Lemma leaves_success {SO : SetOrder} b0 t b1 ev1 b ev post ev' : lives b0 t b1 ev1 -> same_arcs b0 b -> wf_bn b -> nonneg_bn b -> NoDup (dkeys ev) -> weights_ok ev ->
  leaves b post ev ev' -> (exists u, snd (set_evidence b ev post t) = Ok u) -> read_as b post ev ev'.
Proof.
  intros L SA WB NN ND W LV (u & E). destruct (lives_reaches _ _ _ _ L) as (k & R).
  assert (C : forall x, ~ evidence_fault b post ev x).
  { intros x F. apply (set_evidence_outcome b0 t k b ev post x R SA WB NN ND W) in F. congruence. }
  inversion LV as [v P Hv Nv|l l' e0 K El NF Fl RR].
  - destruct (C ValueError). eapply E_prior; eauto.
  - subst. destruct l' as [|[v e] l']; [rewrite app_nil_r in *; assumption|]. destruct Fl as (z & F). destruct (C z). eapply E_item; eauto.
Qed.

Lemma read_same b ev ev' : read_as b false ev ev' -> ev' = ev.
Proof. induction 1; congruence. Qed.
