(** Whole calls of a FactorTree in arithmetic of limited range. *)
From Verif Require Import Base BaseFacts NDArray NDArrayFacts SumCalc Factor FactorFacts Exact Order Spec SpecFacts VEProof VEProof2
  JoinTree HuginPure Hugin JTProof JTProof2 JTBuild3 TreeSpec JTTop JTJunction JTHistory Rounded RoundedSpec RoundedProof RoundedTop RoundedTree RoundedTreeSpec RoundedTreeProof RoundedTreeTop
  Ranged RangedSpec RangedProof RangedTree RangedTreeSpec RangedTreeFacts RangedTreeProof.

Section Top.
Context {RD : Rounding} {LM : Limits} {IV : Inverting} {AD : Adding} {SO : SetOrder}.
Variables (P : Qc) (b : bn).
Hypothesis WB : wf_bn b.
Hypothesis NN : nonneg_bn b.
Variable ev : evidence.
Hypothesis EV : ev_ok b ev.
Hypothesis TM : tame P b ev.
Notation dom := (values_of b).
Notation card := (FactorFacts.card dom).
Notation U := (bnames b).
Notation mag := (mag P).
Notation amag := (amag P).
Notation fits := (fits P).
Notation near3 := (near3 P dom).
Notation cnear := (cnear b).
Notation tnear := (tnear b).
Notation lmul := (mul_with lim).
Notation lmarg := (marg_with lim).
Notation linv := (invert_with lim finite).
Notation Z := (preds dom (bnames b)).
Notation W := (sumn (sizes b (bnames b))).
Notation N := (length (bnodes b) + length ev).
Notation cm := (cm P).
Let P1 : (1 <= P)%Qc := proj1 TM.

(** *** The tables after both passes *)
Lemma mag_one : mag 0 0 1%Qc.
Proof. right. split; apply qleb_true; vm_compute; reflexivity. Qed.
Lemma qprod_mag {A} (F : A -> Qc) (k : A -> nat) l : (forall x, In x l -> mag (k x) 0 (F x)) -> mag (sumn (map k l)) 0 (qprod (map F l)).
Proof.
  induction l as [|x l IH]; intros H; [exact mag_one|]. cbn [map qprod fold_right sumn]. apply (mag_mul P P1 _ 0 _ 0); [apply H; left; reflexivity|apply IH; intros y Hy; apply H; right; exact Hy].
Qed.
Lemma ievw_mag n a : In n (bnodes b) -> mag (if dmem (dn_name n) ev then 1 else 0) 0 (ievw ev n a).
Proof.
  intros Hn. unfold ievw, dmem. destruct (dget (dn_name n) ev) as [[x|q]|] eqn:D; [|apply mags_nth; eapply Forall_impl; [apply amid_mag|]; eapply (proj2 (proj2 TM)), dget_In, D|exact mag_one].
  destruct (Nat.eqb _ _); [|apply mag_zero]. apply (mag_mono P P1 0 0); [lia|lia|exact mag_one].
Qed.
Lemma count_ev : sumn (map (fun n => 1 + (if dmem (dn_name n) ev then 1 else 0)) (bnodes b)) <= N.
Proof.
  assert (L := filter_ev_length b WB ev). assert (E : sumn (map (fun n => 1 + (if dmem (dn_name n) ev then 1 else 0)) (bnodes b)) = length (bnodes b) + length (filter (fun v => dmem v ev) (bnames b))).
  { unfold bnames. clear. unfold sumn. induction (bnodes b) as [|n l IH]; cbn [map fold_right filter length]; [reflexivity|]. rewrite IH. destruct (dmem (dn_name n) ev); cbn [length]; lia. }
  lia.
Qed.
Lemma iweight_mag a : mag N 0 (iweight b ev a).
Proof.
  apply (mag_mono P P1 (sumn (map (fun n => 1 + (if dmem (dn_name n) ev then 1 else 0)) (bnodes b))) 0); [apply count_ev|lia|]. unfold iweight.
  apply (qprod_mag (fun n => feval (from_node n) a * ievw ev n a)%Qc). intros n Hn. apply (mag_mul P P1 1 0 _ 0); [|apply ievw_mag, Hn]. unfold feval. apply amag_get. eapply Forall_impl; [apply amid_mag|]. apply (proj1 (proj2 TM)), Hn.
Qed.
Lemma sum_over_mag vs F p s : (forall a, mag p s (F a)) -> forall a, mag p (s + preds dom vs) (sum_over card vs F a).
Proof.
  intros H. induction vs as [|v vs IH]; intros a; cbn [sum_over]; [eapply (mag_mono P P1); [| |apply H]; lia|].
  unfold bigsum. eapply (mag_mono P P1); [apply Nat.le_refl| |apply (mag_sum P P1 p (s + preds dom vs))].
  - rewrite map_length, seq_length. unfold FactorFacts.card. assert (PV : preds dom (v :: vs) = pred (length (dom v)) + preds dom vs) by reflexivity. rewrite PV. lia.
  - apply Forall_forall. intros x Hx. apply in_map_iff in Hx as (i & <- & _). apply IH.
Qed.

Lemma rep_mag f X F p s : rep dom U f X F -> (forall a, inrange card U a -> mag p s (F a)) -> amag p s (pot f).
Proof.
  intros (WF & S & I & V) H. unfold RangedProof.amag. rewrite (data_aget _ (wf_arr _ _ WF)). apply Forall_forall. intros x Hx. apply in_map_iff in Hx as (ix & <- & Hix). apply In_indices in Hix.
  rewrite (wf_shape _ _ WF) in Hix. assert (L := inb_length _ _ Hix). rewrite map_length in L. rewrite <- (map_asg_of (vorder f) ix (wf_nodup _ _ WF) L). change (aget (pot f) (map (asg_of (vorder f) ix) (vorder f))) with (feval f (asg_of (vorder f) ix)).
  rewrite (feval_deps f (asg_of (vorder f) ix) (fun v => if mem v (vorder f) then asg_of (vorder f) ix v else 0)).
  - assert (R : inrange card U (fun v => if mem v (vorder f) then asg_of (vorder f) ix v else 0)).
    { intros v Hv. destruct (mem v (vorder f)) eqn:M; [apply (inb_asg_of card (vorder f) ix Hix v), mem_In, M|]. exact (zero_range b WB v Hv). }
    rewrite V by exact R. apply H, R.
  - intros v Hv. apply mem_In in Hv. rewrite Hv. reflexivity.
Qed.

Lemma final_mag t1 r sv : jt_ok b t1 r sv -> calibrated b t1 r sv (iweight b ev) -> forall k, In k (rkeys r) -> cm t1 k N Z.
Proof.
  intros J C k Hk x Hx. destruct (final_node b _ _ _ _ _ k C Hk) as (f & E & R). assert (x = mkC (cvo t1 k) f) by congruence. subst x. cbn [cfac].
  eapply rep_mag; [exact R|]. intros a _. eapply (mag_mono P P1); [apply Nat.le_refl| |apply sum_over_mag, iweight_mag]. cbn [Nat.add]. apply preds_bound.
  unfold minus. apply NoDup_filter. exact (V_NoDup card _ _ _ (jo_rjt _ _ _ _ J)).
Qed.

(** *** Placing tables *)
Definition cmags (mp : string -> nat) (l : dict clique) : Prop := Forall (fun p => amag (mp (fst p)) 0 (pot (cfac (snd p)))) l.
Lemma cmags_cm mp t k : cmags mp (tnodes t) -> cm t k (mp k) 0.
Proof. intros H x Hx. apply dget_In in Hx. unfold cmags in H. rewrite Forall_forall in H. exact (H _ Hx). Qed.
Lemma tot_in c l a : In a l -> c a <= tot c l.
Proof. exact (Sp_in c l a). Qed.

Lemma put_in X f l l' c mp l1 M K : near3 1 0 0 f f -> Forall2 (cnear c) l l' -> cmags mp l -> NoDup (dkeys l) -> put fmul X f l = Ok l1 -> tot mp (dkeys l) + 1 <= M -> tot c (dkeys l) <= K -> fits M 0 K ->
  put lmul X f l' = put rmul X f l' /\ exists mp1, cmags mp1 l1 /\ tot mp1 (dkeys l) <= tot mp (dkeys l) + 1 /\ (forall a, ~ In a (dkeys l) -> mp1 a = mp a).
Proof.
  intros NF F. revert l1 M K. induction F as [|[k x] [k' x'] l l' (H1 & H2 & H3) F IH]; intros l1 M K MG ND E TM' TC FI; cbn [put dkeys map fst snd] in *.
  - inversion E; subst. split; [reflexivity|]. exists mp. repeat split; auto. cbn. lia.
  - subst k'. rewrite H2. inversion ND as [|? ? NI ND']; subst. inversion MG as [|? ? MX ML]; subst. cbn [fst snd] in MX. unfold tot in TM', TC. cbn [map sumn fold_right] in TM', TC.
    change (fold_right Nat.add 0 (map mp (map fst l))) with (tot mp (dkeys l)) in TM'. change (fold_right Nat.add 0 (map c (map fst l))) with (tot c (dkeys l)) in TC. destruct (X (cvars x)).
    + destruct (fmul (cfac x) f) as [g|] eqn:G; cbn [rbind] in E; [|discriminate]. inversion E; subst l1.
      assert (NX : near3 (mp k) 0 (c k) (cfac x) (cfac x')) by (split; assumption).
      destruct (mul3 P P1 dom _ _ _ _ _ _ _ _ _ _ _ NX NF ltac:(eapply (fits_down P P1); [| | |exact FI]; lia) G) as (g' & G1 & G2 & NG). rewrite G1, G2. split; [reflexivity|].
      assert (SAME : forall a, In a (map fst l) -> upd mp k (mp k + 1) a = mp a) by (intros a Ha; unfold upd; destruct (String.eqb_spec a k) as [->|]; [contradiction|reflexivity]).
      exists (upd mp k (mp k + 1)). split; [|split].
      * constructor; [cbn [fst snd cfac]; unfold upd; rewrite eqb_refl_s; exact (n3_mag _ _ _ _ _ _ _ NG)|]. unfold cmags in ML. rewrite Forall_forall in ML |- *. intros y Hy. rewrite SAME by (apply in_map, Hy). apply ML, Hy.
      * assert (T : tot (upd mp k (mp k + 1)) (map fst l) = tot mp (map fst l)) by (apply tot_ext, SAME). unfold tot in *. cbn [map sumn fold_right]. unfold sumn in *. rewrite T. unfold upd. rewrite eqb_refl_s. lia.
      * intros a Ha. unfold upd. destruct (String.eqb_spec a k) as [->|]; [exfalso; apply Ha; left; reflexivity|reflexivity].
    + destruct (put fmul X f l) as [r|] eqn:R; cbn [rbind] in E; [|discriminate]. inversion E; subst l1.
      destruct (IH r M K ML ND' eq_refl) as (Q & mp1 & B1 & B2 & B3); [lia|lia|exact FI|]. rewrite Q. split; [reflexivity|]. exists mp1. split; [|split].
      * constructor; [|exact B1]. cbn [fst snd]. rewrite B3 by exact NI. exact MX.
      * unfold tot, dkeys in *. cbn [map sumn fold_right]. unfold sumn in *. rewrite (B3 k NI). lia.
      * intros a Ha. apply B3. intros H. apply Ha. right. exact H.
Qed.

Lemma factors_in fs l l' c mp l1 M K : Forall (fun f => near3 1 0 0 f f) fs -> Forall2 (cnear c) l l' -> cmags mp l -> NoDup (dkeys l) -> foldM (fun l f => assign_factor f l) fs l = Ok l1 ->
  tot mp (dkeys l) + length fs <= M -> tot c (dkeys l) + length fs <= K -> fits M 0 K ->
  foldM (fun l f => assign_factor_by lmul f l) fs l' = foldM (fun l f => assign_factor_by rmul f l) fs l' /\ exists mp1, cmags mp1 l1 /\ tot mp1 (dkeys l) <= tot mp (dkeys l) + length fs.
Proof.
  intros NF. revert l l' c mp. induction NF as [|f fs NX NF IH]; intros l l' c mp F MG ND E TM' TC FI; cbn [foldM length] in *.
  - inversion E; subst. split; [reflexivity|]. exists mp. split; [exact MG|lia].
  - rewrite <- (assign_factor_same f l), assign_factor_put in E. destruct (put fmul _ f l) as [l2|] eqn:A; cbn [rbind] in E; [|discriminate].
    destruct (put_near b _ _ _ _ _ _ (n3_near _ _ _ _ _ _ _ NX) F ND A) as (l2' & c2 & A' & F2 & K2 & T2 & _).
    destruct (put_in _ _ _ _ _ _ _ M K NX F MG ND A ltac:(lia) ltac:(lia) FI) as (Q & mp2 & B1 & B2 & B3). rewrite !assign_factor_put, Q, A'. cbn [rbind].
    destruct (IH l2 l2' c2 mp2 F2 B1) as (Q3 & mp3 & C1 & C2); [rewrite K2; exact ND|exact E|rewrite K2; lia|rewrite K2; lia|exact FI|]. split; [exact Q3|]. exists mp3. rewrite K2 in C2. split; [exact C1|lia].
Qed.

Lemma nodes3 : Forall (fun f => near3 1 0 0 f f) (map from_node (bnodes b)).
Proof. apply Forall_forall. intros f Hf. apply in_map_iff in Hf as (n & <- & Hn). eapply node3; eassumption. Qed.

Lemma assign_all_in t t' c s mp t1 M K : tnear c s t t' -> cmags mp (tnodes t) -> NoDup (dkeys (tnodes t)) -> assign_factors (map from_node (bnodes b)) t = Ok t1 ->
  tot mp (dkeys (tnodes t)) + length (bnodes b) <= M -> tot c (dkeys (tnodes t)) + length (bnodes b) <= K -> fits M 0 K ->
  assign_factors_by lmul (map from_node (bnodes b)) t' = assign_factors_by rmul (map from_node (bnodes b)) t' /\ exists mp1, cmags mp1 (tnodes t1) /\ tot mp1 (dkeys (tnodes t)) <= tot mp (dkeys (tnodes t)) + length (bnodes b).
Proof.
  intros [A V NO E] MG ND H TM' TC FI. unfold assign_factors in H. destruct (foldM _ _ (tnodes t)) as [l1|] eqn:F; cbn [rbind] in H; [|discriminate]. inversion H; subst t1.
  destruct (factors_in _ _ _ _ _ _ M K nodes3 NO MG ND F) as (Q & mp1 & B1 & B2); [rewrite map_length; exact TM'|rewrite map_length; exact TC|exact FI|].
  unfold assign_factors_by. rewrite Q. split; [reflexivity|]. exists mp1. rewrite map_length in B2. split; assumption.
Qed.

Lemma clear_mags t : cmags (fun _ => 0) (tnodes (clear_factors t)).
Proof. unfold cmags. cbn. apply Forall_forall. intros p Hp. apply in_map_iff in Hp as (q & <- & _). apply (one_mag P P1). Qed.

Lemma reset_in t t1 M K : NoDup (dkeys (tnodes t)) -> reset_factors b t = (t1, Ok tt) -> length (bnodes b) <= M -> length (bnodes b) <= K -> fits M 0 K ->
  limited_reset b t = rounded_reset b t /\ exists mp, cmags mp (tnodes t1) /\ tot mp (dkeys (tnodes t1)) <= length (bnodes b).
Proof.
  intros ND E TM' TC FI. unfold reset_factors in E. destruct (assign_factors _ _) as [t2|] eqn:A; [|discriminate]. inversion E; subst t1.
  assert (K0 : dkeys (tnodes (clear_factors t)) = dkeys (tnodes t)) by (cbn; unfold dkeys; rewrite map_map; reflexivity).
  rewrite <- K0 in ND. destruct (assign_all_in (clear_factors t) (clear_factors t) _ _ _ t2 M K (clear_near b t) (clear_mags t) ND A) as (Q & mp & B1 & B2); [rewrite tot_zero; exact TM'|rewrite tot_zero; exact TC|exact FI|].
  destruct (assign_all_near b WB NN _ _ _ _ t2 (clear_near b t) ND A) as (_ & _ & _ & _ & K2 & _).
  unfold limited_reset, rounded_reset, reset_factors_by. rewrite Q. split; [reflexivity|]. exists mp. cbn [set_valid tnodes]. rewrite K2. rewrite tot_zero in B2. split; assumption.
Qed.

Lemma evidence_in ev1 t t' c s mp t1 M K : incl ev1 ev -> tnear c s t t' -> cmags mp (tnodes t) -> NoDup (dkeys (tnodes t)) -> each (add_tree_evidence b []) ev1 t = (t1, Ok tt) ->
  tot mp (dkeys (tnodes t)) + length ev1 <= M -> tot c (dkeys (tnodes t)) + length ev1 <= K -> fits M 0 K ->
  each (add_tree_evidence_by lmul b) ev1 t' = each (add_tree_evidence_by rmul b) ev1 t' /\ exists mp1, cmags mp1 (tnodes t1) /\ tot mp1 (dkeys (tnodes t)) <= tot mp (dkeys (tnodes t)) + length ev1.
Proof.
  revert t t' c mp. induction ev1 as [|[v e] ev1 IH]; intros t t' c mp I TN MG ND E TM' TC FI; cbn [each length] in *.
  - inversion E; subst. split; [reflexivity|]. exists mp. split; [exact MG|lia].
  - destruct (add_tree_evidence b [] (v, e) t) as [t2 [u|x]] eqn:A; [|discriminate]. unfold add_tree_evidence in A. cbv zeta in A. cbn [fst snd dget] in A.
    destruct (get_node b v) as [n|] eqn:G; cbn [rbind] in A; [|discriminate]. destruct (as_evidence v (dn_values n) e None) as [ef|] eqn:AE; cbn [rbind] in A; [|discriminate].
    rewrite <- assign_evidence_same, assign_evidence_put in A. destruct (put fmul _ ef (tnodes t)) as [l2|] eqn:PT; [|discriminate]. inversion A; subst t2.
    assert (N3 : near3 1 0 0 ef ef) by (eapply ev3; [exact WB|exact EV|exact TM|exact (I _ (or_introl eq_refl))|exact G|exact AE]).
    destruct TN as [TA TV TNo TE]. destruct (put_near b _ _ _ _ _ _ (n3_near _ _ _ _ _ _ _ N3) TNo ND PT) as (l2' & c2 & P' & F2 & K2 & T2 & _).
    destruct (put_in _ _ _ _ _ _ _ M K N3 TNo MG ND PT ltac:(lia) ltac:(lia) FI) as (Q & mp2 & B1 & B2 & B3).
    destruct (IH (mkT l2 (tadj t) (tedges t) (tvalid t)) (mkT l2' (tadj t') (tedges t') (tvalid t')) c2 mp2) as (Q1 & mp1 & C1 & C2); cbn [tnodes]; rewrite ?K2; try assumption; try lia.
    { intros y Hy. apply I. right; exact Hy. } { split; assumption. }
    split.
    + unfold add_tree_evidence_by at 1 3. cbn [fst snd]. rewrite G. cbn [rbind]. rewrite AE. cbn [rbind]. rewrite !assign_evidence_put, Q, P'. exact Q1.
    + exists mp1. split; [exact C1|]. cbn [tnodes] in C2. rewrite K2 in C2. lia.
Qed.

(** *** Both passes *)
Lemma passes_in t t' c mp r sv t1 : jt_ok b t r sv -> tnear c (fun _ _ => 0) t t' -> tvalid t = false -> trivial_seps t -> cmags mp (tnodes t) -> tot mp (dkeys (tnodes t)) <= N ->
  calculate_messages t = (t1, Ok tt) -> tvalid t1 = true -> calibrated b t1 r sv (iweight b ev) ->
  let m := length (tnodes t) in let T := tot c (dkeys (tnodes t)) + m * (W + 3) in
  fits (N + N) ((m + 2) * Z) (T + m * (2 * T + W + 3)) -> limited_messages t' = rounded_messages t'.
Proof.
  intros J TN V TS MG TM' E V1 CAL. cbv zeta. intros FI. destruct (jo_root _ _ _ _ J) as (rest & Er). destruct r as [k cs]. cbn [rkey] in Er.
  destruct (passes_ok t t1 k rest Er V E V1) as (ta & tb & EP & EQ & ->).
  assert (ND := jo_nodup _ _ _ _ J). assert (RN := jo_rnodup _ _ _ _ J). assert (NE := jo_ne _ _ _ _ J). assert (AD0 := jo_adj _ _ _ _ J). cbn [rkeys] in RN, NE.
  assert (PM := rkeys_perm b _ _ _ J). assert (LK : length (rkeys (RT k cs)) = length (tnodes t)) by (rewrite (Permutation_length PM); unfold dkeys; apply map_length).
  set (m := length (tnodes t)) in *. set (T := tot c (dkeys (tnodes t)) + m * (W + 3)) in *.
  assert (TT : Sm b c (rkeys (RT k cs)) = T) by (rewrite (Sm_perm _ _ _ _ PM), Sm_tot; unfold T, m, dkeys; rewrite map_length; reflexivity).
  cbn [rkeys] in TT. unfold Sm in TT. cbn [map sumn fold_right] in TT. change (fold_right Nat.add 0 (map (fun a => c a + W + 3) (flat_map rkeys cs))) with (Sm b c (flat_map rkeys cs)) in TT.
  assert (SPT : mp k + Sp mp (flat_map rkeys cs) <= N).
  { eapply Nat.le_trans; [|exact TM']. change (Sp mp (rkeys (RT k cs)) <= tot mp (dkeys (tnodes t))). unfold Sp, tot. apply Nat.eq_le_incl, sumn_perm, Permutation_map, PM. }
  assert (SZT : Z + Sz b (fun _ => 0) (flat_map rkeys cs) = m * Z).
  { rewrite <- LK. cbn [rkeys length]. unfold Sz, sumn. clear. induction (flat_map rkeys cs) as [|a l IH]; cbn in *; lia. }
  inversion AD0 as [? ? ? Af Ac]; subst.
  assert (EPc := EP). cbn [pull] in EPc. rewrite Af in EPc. destruct (each (fun x => pull m x (Some k)) (map rkey cs) t) as [tc [[]|e]] eqn:EE; [|discriminate]. inversion EPc; subst tc. clear EPc.
  assert (PN : Forall (pull_near b) cs) by (apply Forall_forall; intros x _; apply pull_all).
  assert (PI : Forall (pull_in P b) cs) by (apply Forall_forall; intros x _; apply pull_in_all, P1).
  destruct (pull_each b k cs PN m t ta t' c _ TN ND EE Ac RN NE (fun _ _ _ => eq_refl)) as (ta' & ca & sa & EE' & TNa & B1 & B2 & B3 & B4 & B5).
  destruct (pull_in_each P b P1 k cs PI m t ta t' c _ mp (fun _ => 0) TN ND EE Ac RN NE (fun _ _ _ => eq_refl)) as (G1 & G2 & G3 & G4 & G5).
  { intros a d x _ Hx. exact (TS a d x Hx). } { intros a _. apply cmags_cm, MG. } { eapply (fits_down P P1); [| | |exact FI]; nia. }
  assert (SK : skel ta = skel t) by (assert (X := skel_pull (S m) k None t); rewrite EP in X; exact X).
  assert (SKb : skel tb = skel ta) by (assert (X := skel_push (S m) k None ta); cbn [rkey] in EQ; rewrite EQ in X; exact X).
  assert (Jb : jt_ok b (set_valid true tb) (RT k cs) sv) by (eapply jt_ok_same; [reflexivity| |exact J]; rewrite skel_valid; congruence).
  assert (QQ : push_by lmul lmarg linv (S m) k None ta' = push_by rmul rmarg rinvert (S m) k None ta').
  { assert (X := push_in_all P b P1 (RT k cs) (S m) None ta tb ta' ca sa T T N Z (m * Z) TNa). cbn [rkey] in X. apply X; clear X.
    - rewrite (skel_keys _ _ SK). exact ND.
    - exact EQ.
    - rewrite (skel_adj _ _ SK). exact AD0.
    - exact RN.
    - lia.
    - cbn [rkeys rkey]. intros a [<-|Ha] NA; [destruct (NA eq_refl)|]. specialize (B2 a Ha). lia.
    - intros a d Ha Hd. destruct (touched_dec k (flat_map rkeys cs) a d) as [Y|Y]; [specialize (B5 a d Y); lia|]. rewrite B4 by exact Y. lia.
    - intros a Ha. exact (final_mag _ _ _ Jb CAL a Ha).
    - intros a d Ha Hd y Hy. destruct (touched_dec k (flat_map rkeys cs) a d) as [Y|Y].
      + eapply (amag_mono P P1); [| |exact (G5 a d Y y Hy)]; lia.
      + rewrite G4 in Hy by exact Y. rewrite (TS a d y Hy). apply (one_mag P P1).
    - rewrite LK. eapply (fits_down P P1); [| | |exact FI]; nia. }
  unfold limited_messages, rounded_messages, calculate_messages_by. assert (K' : dkeys (tnodes t') = k :: rest /\ length (tnodes t') = m).
  { assert (F := tn_nodes _ _ _ _ _ TN). unfold m. rewrite <- Er. unfold dkeys. clear - F. induction F as [|p p' l l' (H & _) F [IH1 IH2]]; cbn; [auto|]. rewrite H, IH1, IH2. auto. }
  destruct K' as [-> ->]. cbv zeta.
  assert (E1 : pull_by lmul lmarg linv (S m) k None t' = (ta', Ok tt)) by (cbn [pull_by]; rewrite (tn_adj _ _ _ _ _ TN), Af, G1, EE'; reflexivity).
  assert (E2 : pull_by rmul rmarg rinvert (S m) k None t' = (ta', Ok tt)) by (cbn [pull_by]; rewrite (tn_adj _ _ _ _ _ TN), Af, EE'; reflexivity).
  rewrite E1, E2, QQ. reflexivity.
Qed.

(** *** Queries *)
Lemma query_in B s t t' Q f : tnear (fun _ => B) s t t' -> NoDup (dkeys (tnodes t)) -> tvalid t = true -> (forall k, In k (dkeys (tnodes t)) -> cm t k N Z) -> tmarginals t Q = (t, Ok f) ->
  fits (N + N) (2 * Z + length (data (pot f))) (2 * (B + W) + length (data (pot f))) -> limited_tree t' Q = rounded_tree t' Q.
Proof.
  intros [A V NO E] ND VT CM H FI. unfold tmarginals in H. rewrite VT in H. unfold limited_tree, rounded_tree, tmarginals_by. rewrite V, VT. inversion H as [H']. clear H.
  assert (FD : forall p, find (fun p => subset Q (cvars (snd p))) (tnodes t) = Some p -> exists p', find (fun p => subset Q (cvars (snd p))) (tnodes t') = Some p' /\ cnear (fun _ => B) p p').
  { clear H' CM ND. induction NO as [|p p' l l' C NO IH]; cbn; [discriminate|]. rewrite (proj1 (proj2 C)). destruct (subset Q (cvars (snd p))); [|exact IH]. intros q Hq; inversion Hq; subst. eauto. }
  destruct (find _ (tnodes t)) as [[k x]|] eqn:FF; [|discriminate]. destruct (FD _ eq_refl) as ([k' x'] & F' & C1 & C2 & C3). rewrite F'. cbn [fst snd] in *. rewrite C2.
  destruct (marginalize (cfac x) (sdiff (cvars x) Q)) as [g|] eqn:G; cbn [rbind] in H'; [|discriminate]. inversion H'; subst f. rewrite normalize_size in FI.
  assert (HX : dget k (tnodes t) = Some x) by (apply In_dget; [exact ND|apply (find_some _ _ FF)]).
  assert (N3 : near3 N Z B (cfac x) (cfac x')) by (split; [exact C3|apply (CM k); [eapply dget_Some_key, HX|exact HX]]).
  destruct (margs_all P b P1 _ _ _ _ _ _ _ N3 (sdiff_nodup _ _) ltac:(eapply (fits_down P P1); [| | |exact FI]; lia) G) as (g' & G1 & G2 & NG). rewrite G1, G2. cbn [rbind].
  rewrite (norm3 P P1 dom _ _ _ _ _ NG); [reflexivity|]. eapply (fits_down P P1); [| | |exact FI]; lia.
Qed.

Lemma need_parts m Q : (tree_need P b m Q ev <= top)%Qc -> fits (N + N) ((m + 3) * Z + prodn (sizes b Q)) (tree_errors b m Q ev).
Proof. intros H. replace (N + N) with (2 * N) by lia. rewrite preds_sizes. exact H. Qed.

(** The passes, then the query, from a tree loaded with tables and evidence. *)
Lemma messages_limited t t' c mp r sv Q : jt_ok b t r sv -> tnear c (fun _ _ => 0) t t' -> tvalid t = false -> loaded b t (iweight b ev) -> cmags mp (tnodes t) ->
  tot mp (dkeys (tnodes t)) <= N -> tot c (dkeys (tnodes t)) <= N -> NoDup Q -> (tree_need P b (length (tnodes t)) Q ev <= top)%Qc ->
  limited_messages t' = rounded_messages t' /\ (answers t Q -> limited_tree (fst (rounded_messages t')) Q = rounded_tree (fst (rounded_messages t')) Q).
Proof.
  intros J TN V L MG TM' TC ND FI. apply need_parts in FI. destruct (calculate_calibrates b WB t r sv _ J L) as (t1 & E & S1 & V1 & C).
  unfold tree_errors, passing_errors in FI. cbv zeta in FI.
  assert (TS : trivial_seps t) by apply L.
  assert (EQ : limited_messages t' = rounded_messages t').
  { apply (passes_in t t' c mp r sv t1 J TN V TS MG TM' E V1 C). eapply (fits_down P P1); [| | |exact FI]; nia. }
  split; [exact EQ|]. intros A.
  destruct (passes_near b t t' c r sv t1 J TN V E V1) as (t1' & s & E' & TN1). cbv zeta in TN1. rewrite E'. cbn [fst].
  assert (J1 : jt_ok b t1 r sv) by (eapply jt_ok_same; [reflexivity|symmetry; exact S1|exact J]).
  destruct (query_posterior b WB ev t1 r sv Q NN EV ND J1 V1 C) as (f & Ef & Rf).
  { apply (in_clique_skel t t1); [symmetry; exact S1|]. apply answers_in_clique, A. }
  apply (query_in _ s t1 t1' Q f TN1 (jo_nodup _ _ _ _ J1) V1).
  - intros k Hk. apply (final_mag t1 r sv J1 C). apply (jo_keys _ _ _ _ J1), Hk.
  - exact Ef.
  - rewrite (reports_size b f Q _ ND Rf). eapply (fits_down P P1); [| | |exact FI]; nia.
Qed.

Theorem evidence_limited t r sv Q : jt_ok b t r sv -> incl (dkeys ev) (bnames b) -> NoDup Q -> (tree_need P b (length (tnodes t)) Q ev <= top)%Qc ->
  limited_evidence b ev t = rounded_evidence b ev t /\ (answers t Q -> limited_tree (fst (rounded_evidence b ev t)) Q = rounded_tree (fst (rounded_evidence b ev t)) Q).
Proof.
  intros J K ND FI. destruct (reset_loaded b WB t r sv NN J) as (t1 & E1 & S1 & V1 & L1).
  assert (J1 : jt_ok b t1 r sv) by (eapply jt_ok_same; [reflexivity|symmetry; exact S1|exact J]).
  destruct (each_evidence b WB ev ev EV (incl_refl _) K t1 r sv _ J1 L1) as (t2 & E2 & S2 & V2 & L2).
  assert (J2 : jt_ok b t2 r sv) by (eapply jt_ok_same; [reflexivity|symmetry; exact S2|exact J1]).
  destruct (reset_near b WB NN t t1 (jo_nodup _ _ _ _ J) E1) as (t1' & c1 & E1' & TN1 & _ & K1 & T1).
  assert (FI' := need_parts _ _ FI). unfold tree_errors, passing_errors in FI'. cbv zeta in FI'. assert (FN : fits N 0 N) by (eapply (fits_down P P1); [| | |exact FI']; nia).
  destruct (reset_in t t1 N N (jo_nodup _ _ _ _ J) E1 ltac:(lia) ltac:(lia) FN) as (QR & mp1 & M1 & MT1).
  destruct (evidence_near b WB ev ev t1 t1' c1 _ t2 EV (incl_refl _) TN1 (jo_nodup _ _ _ _ J1) E2) as (t2' & c2 & E2' & TN2 & K2 & T2).
  destruct (evidence_in ev t1 t1' c1 _ mp1 t2 N N (incl_refl _) TN1 M1 (jo_nodup _ _ _ _ J1) E2 ltac:(lia) ltac:(lia) FN) as (QE & mp2 & M2 & MT2).
  assert (LT : length (tnodes t2) = length (tnodes t)). { rewrite <- (map_length fst (tnodes t2)), <- (map_length fst (tnodes t)). change (length (dkeys (tnodes t2)) = length (dkeys (tnodes t))). congruence. }
  destruct (messages_limited t2 t2' c2 mp2 r sv Q J2 TN2) as (QM & QA).
  { congruence. } { eapply loaded_ext; [exact L2|]. intros a _. apply iweight_split; assumption. } { exact M2. } { rewrite K2. lia. } { rewrite K2. lia. } { exact ND. } { rewrite LT. exact FI. }
  unfold limited_evidence, rounded_evidence, set_evidence_by. fold (rounded_reset b t). fold (limited_reset b t). rewrite QR, E1', QE, E2'. fold (limited_messages t2'). fold (rounded_messages t2'). split; [exact QM|].
  intros A. apply QA. eapply answers_skel; [|exact A]. congruence.
Qed.
End Top.

(** ** Creation, histories *)
Section History.
Context {RD : Rounding} {LM : Limits} {IV : Inverting} {AD : Adding} {SO : SetOrder}.

Lemma worked_ok b0 t : worked b0 t -> exists r sv, jt_ok b0 t r sv.
Proof.
  assert (SAME : forall t t', skel t' = skel t -> (exists r sv, jt_ok b0 t r sv) -> exists r sv, jt_ok b0 t' r sv).
  { intros u u' E (r & sv & J). exists r, sv. eapply jt_ok_same; [reflexivity|symmetry; exact E|exact J]. }
  induction 1 as [order o t EO SU NN E|b ev t U IH|b t U IH|t U IH|Q t U IH].
  - destruct (create_ok b0 o order SU NN EO) as (t0 & r & sv & E0 & J & _ & _). exists r, sv. eapply jt_ok_same; [reflexivity| |exact J].
    unfold limited_jointree, create_jointree_by in E. unfold create_jointree in E0. rewrite EO in E, E0. cbn [rbind] in E, E0. destruct (cluster_seq o (moral_graph b0)) as [cs|]; cbn [rbind] in E, E0; [|discriminate].
    destruct (prune cs) as [l|]; cbn [rbind] in E, E0; [|discriminate]. rewrite <- assign_factors_same in E0. destruct (assign_factors_by_skel _ _ _ _ E) as [S1 _]. destruct (assign_factors_by_skel _ _ _ _ E0) as [S2 _]. congruence.
  - eapply SAME; [|exact IH]. apply set_evidence_by_skel.
  - eapply SAME; [|exact IH]. apply reset_by_skel.
  - eapply SAME; [|exact IH]. apply calculate_by_skel.
  - eapply SAME; [|exact IH]. apply tmarginals_by_skel.
Qed.

Theorem tree_limited P b0 t b ev Q : worked b0 t -> same_arcs b0 b -> wf_bn b -> nonneg_bn b -> ev_ok b ev -> incl (dkeys ev) (bnames b) -> tame P b ev -> NoDup Q ->
  (tree_need P b (length (tree_keys t)) Q ev <= top)%Qc ->
  limited_evidence b ev t = rounded_evidence b ev t /\
  (answers t Q -> exists t1 f, limited_evidence b ev t = (t1, Ok tt) /\ limited_tree t1 Q = (t1, Ok f) /\ rounded_tree t1 Q = (t1, Ok f) /\ reports b f Q (potential_at f) /\
    forall q, is_inst b Q q -> close (tree_errors b (length (tree_keys t)) Q ev) (posterior b ev q) (potential_at f q)).
Proof.
  intros U SA WB NN EV K TM ND FI. destruct (worked_ok b0 t U) as (r & sv & J). assert (Jb : jt_ok b t r sv) by (eapply jt_ok_same; [exact (same_arcs_families _ _ SA)|reflexivity|exact J]).
  unfold tree_keys, dkeys in *. rewrite map_length in *. destruct (evidence_limited P b WB NN ev EV TM t r sv Q Jb K ND FI) as [EQ QA]. split; [exact EQ|]. intros A.
  destruct (evidence_rounded b WB NN t r sv ev Q Jb EV K ND A) as (t1 & f & E1 & E2 & R & C). specialize (QA A). rewrite E1 in QA. cbn [fst] in QA. exists t1, f.
  rewrite EQ, QA. auto.
Qed.

Theorem fresh_limited P b order o Q : suits b o -> nonneg_bn b -> order_or_default b order = Ok o -> tame P b [] -> NoDup Q ->
  (forall t, rounded_jointree b order = Ok t -> tree_need P b (length (tree_keys t)) Q [] <= top)%Qc ->
  limited_jointree b order = rounded_jointree b order /\ forall t, limited_jointree b order = Ok t -> limited_messages t = rounded_messages t /\ (answers t Q -> limited_tree t Q = rounded_tree t Q).
Proof.
  intros SU NN EO TM ND FI. destruct (create_rounded b order o SU NN EO) as (t & t' & r & sv & c & E & E' & J & J' & V & L & TN & T). assert (WB := su_bn _ _ SU).
  assert (SK : length (tnodes t) = length (tree_keys t')).
  { assert (F := tn_nodes _ _ _ _ _ TN). unfold tree_keys, dkeys. rewrite map_length. exact (forall2_length _ _ _ _ _ F). }
  specialize (FI t' E'). rewrite <- SK in FI. assert (P1 := proj1 TM). assert (FI' := need_parts P b [] _ _ FI). unfold tree_errors, passing_errors in FI'. cbv zeta in FI'. cbn [length] in FI'.
  assert (E0 := E). unfold create_jointree in E0. rewrite EO in E0. cbn [rbind] in E0. destruct (cluster_seq o (moral_graph b)) as [cs|] eqn:E1; cbn [rbind] in E0; [|discriminate].
  destruct (prune cs) as [l|] eqn:E2; cbn [rbind] in E0; [|discriminate]. assert (E3 := E0). rewrite <- assign_factors_same in E3. destruct (assign_factors_by_skel _ _ _ _ E3) as [S0 _].
  assert (ND0 : NoDup (dkeys (tnodes (build_tree l)))) by (rewrite <- (skel_keys _ _ S0); apply (jo_nodup _ _ _ _ J)).
  assert (CN := clear_near b (build_tree l)). assert (CG := clear_mags P b [] TM (build_tree l)). rewrite clear_build in CN, CG.
  set (n := length (bnodes b)) in *.
  destruct (assign_all_in P b WB [] TM _ _ _ _ _ t n n CN CG ND0 E0) as (QA & mp & M1 & M2); [rewrite tot_zero; unfold n; lia|rewrite tot_zero; unfold n; lia|eapply (fits_down P P1); [| | |exact FI']; nia|].
  rewrite tot_zero in M2. rewrite <- (skel_keys _ _ S0) in M2.
  assert (EQ : limited_jointree b order = rounded_jointree b order).
  { unfold limited_jointree, rounded_jointree, create_jointree_by. rewrite EO. cbn [rbind]. rewrite E1. cbn [rbind]. rewrite E2. exact QA. }
  split; [exact EQ|]. intros u Hu. assert (u = t') by congruence. subst u.
  destruct (messages_limited P b WB NN [] (ev_nil b) TM t t' c mp r sv Q J TN V) as [QM QQ].
  { eapply loaded_ext; [exact L|]. intros a _. apply iweight_nil, WB. } { exact M1. } { cbn [length]. fold n. lia. } { cbn [length]. fold n. lia. } { exact ND. } { exact FI. }
  split; [exact QM|]. intros A.
  assert (AT : answers t Q).
  { assert (KV : forall k, tree_vars t' k = tree_vars t k /\ (In k (tree_keys t') <-> In k (tree_keys t))).
    { intros k. assert (F := tn_nodes _ _ _ _ _ TN). unfold tree_vars, tree_keys, dkeys. clear - F. induction F as [|[k1 x1] [k2 x2] l l' (H1 & H2 & _) F IH]; cbn in *; [tauto|]. subst k2.
      destruct (String.eqb k k1); [rewrite H2|]; tauto. }
    destruct A as (k & A1 & A2). exists k. rewrite <- (proj1 (KV k)). split; [apply KV, A1|exact A2]. }
  specialize (QQ AT). destruct (calculate_calibrates b WB t r sv (tables b) J L) as (t1 & F1 & F2 & F3 & _).
  destruct (passes_near b t t' c r sv t1 J TN V F1 F3) as (t1' & s & F' & TN1). rewrite F' in QQ. cbn [fst] in QQ. assert (V' := tn_valid _ _ _ _ _ TN1). assert (V0 := tn_valid _ _ _ _ _ TN).
  unfold limited_tree, rounded_tree, tmarginals_by in QQ |- *. rewrite V', F3 in QQ. rewrite V0, V. fold (limited_messages t'). fold (rounded_messages t'). rewrite QM, F'. exact QQ.
Qed.

Lemma worked_skel b0 t : worked b0 t -> exists order o l cs, order_or_default b0 order = Ok o /\ suits b0 o /\ cluster_seq o (moral_graph b0) = Ok cs /\ prune cs = Ok l /\ skel t = skel (build_tree l).
Proof.
  induction 1 as [order o t EO SU NN E|b ev t U IH|b t U IH|t U IH|Q t U IH];
    try (destruct IH as (order & o & l & cs & H1 & H2 & H3 & H4 & H5); exists order, o, l, cs; repeat (split; [assumption|]); rewrite <- H5).
  - unfold limited_jointree, create_jointree_by in E. rewrite EO in E. cbn [rbind] in E. destruct (cluster_seq o (moral_graph b0)) as [cs|] eqn:E1; cbn [rbind] in E; [|discriminate].
    destruct (prune cs) as [l|] eqn:E2; cbn [rbind] in E; [|discriminate]. destruct (assign_factors_by_skel _ _ _ _ E) as [SK _]. exists order, o, l, cs. auto.
  - apply set_evidence_by_skel. - apply reset_by_skel. - apply calculate_by_skel. - apply tmarginals_by_skel.
Qed.
Lemma worked_size b0 t : worked b0 t -> length (tree_keys t) <= length (bnodes b0).
Proof.
  intros U. destruct (worked_skel b0 t U) as (order & o & l & cs & _ & SU & H3 & H4 & H5). unfold tree_keys. rewrite (skel_keys _ _ H5). unfold dkeys. rewrite map_length.
  assert (PE := su_perm _ _ SU). apply Permutation_length in PE. unfold bnames in PE. rewrite map_length in PE. rewrite PE. rewrite <- (cluster_length _ _ _ H3).
  eapply Nat.le_trans; [apply build_length|]. apply prune_length, H4.
Qed.
Lemma need_mono P b m m' Q ev : (1 <= P)%Qc -> m <= m' -> (tree_need P b m' Q ev <= top)%Qc -> (tree_need P b m Q ev <= top)%Qc.
Proof.
  intros P1 L H. assert (F : fits P (2 * (length (bnodes b) + length ev)) (tree_spread b m' Q) (tree_errors b m' Q ev)) by exact H.
  eapply (fits_down P P1) in F; [exact F|lia| |]; unfold tree_spread, tree_errors, passing_errors; cbv zeta; nia.
Qed.
End History.
