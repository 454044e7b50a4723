(** The state of a FactorTree after any sequence of calls, for any elimination order. *)
From Verif Require Import Base BaseFacts NDArray NDArrayFacts SumCalc Factor FactorFacts Exact Spec SpecFacts
  VEProof VEProof2 Order OrderSpec OrderProof JoinTree HuginPure Hugin JTProof JTProof2 JTBuild JTBuild2 JTBuild3 TreeSpec JTTop JTHistory
  JTAgain JTAgain2.

Section One.
Context {SO : SetOrder}.
Variable b : bn.
Hypothesis WB : wf_bn b.
Hypothesis NN : nonneg_bn b.
Notation dom := (values_of b).
Notation U := (bnames b).
Notation card := (FactorFacts.card dom).
Notation zr := (zero_range b WB).
Notation okf := (okf dom U).
Notation good := (good dom U).

Lemma ok_trivial C : incl C U -> okf C (trivial 1%Qc).
Proof. intros I. split; [apply wf_trivial|intros ? []|exact I|]. intros a _. rewrite feval_trivial. discriminate. Qed.

Lemma ok_mul C f g : okf C f -> okf C g -> exists h, fmul f g = Ok h /\ okf C h.
Proof.
  intros O1 O2. destruct (rep_mul dom U f _ _ g _ _ (ok_rep _ _ _ _ O1) (ok_rep _ _ _ _ O2)) as (h & E & R & _).
  exists h. split; [exact E|]. split.
  - apply R.
  - intros v Hv. apply (proj1 (proj2 R)) in Hv. apply in_app_or in Hv as [Hv|Hv]; [apply (ok_in _ _ _ _ O1)|apply (ok_in _ _ _ _ O2)]; exact Hv.
  - apply O1.
  - intros a Ra. rewrite (proj2 (proj2 (proj2 R)) a Ra). apply Qcmult_nonneg; [apply O1|apply O2]; exact Ra.
Qed.

Lemma good_assign P f t : NoDup (dkeys (tnodes t)) -> good t -> wf_factor dom f ->
  (forall C, P C = true -> incl (vorder f) C) -> (forall a, inrange card U a -> (0 <= feval f a)%Qc) ->
  exists l, assign_at P f (tnodes t) = Ok l /\ good (mkT l (tadj t) (tedges t) (tvalid t)).
Proof.
  intros ND G W I Nf. destruct (find (fun p => P (cvars (snd p))) (tnodes t)) as [[k c]|] eqn:EF.
  - assert (E := find_some _ _ EF). destruct E as [Hin HP]. cbn [snd] in HP.
    assert (Ek : dget k (tnodes t) = Some c) by (apply In_dget; assumption).
    destruct (gd_node _ _ _ G k c Ek) as [NC Ok_c].
    destruct (ok_mul (cvars c) (cfac c) f Ok_c) as (h & Eh & Oh).
    { split; [exact W|apply I, HP|apply Ok_c|exact Nf]. }
    rewrite (assign_at_some P f _ k c ND EF), Eh. cbn [rbind]. eexists; split; [reflexivity|].
    rewrite (mkT_set_cfac k c h t Ek). eapply good_set_cfac; eassumption.
  - rewrite (assign_at_none P f _ EF). eexists; split; [reflexivity|]. destruct t; exact G.
Qed.

Lemma dget_clear k t : dget k (tnodes (clear_factors t)) = option_map (fun c => mkC (cvars c) (trivial 1%Qc)) (dget k (tnodes t)).
Proof.
  unfold clear_factors. cbn [tnodes]. induction (tnodes t) as [|[k' c] l IH]; cbn; [reflexivity|].
  destruct (String.eqb k k'); [reflexivity|exact IH].
Qed.

Lemma eget_clear u v t : eget u v (tedges (clear_factors t)) = option_map (fun s => mkS (svars s) (trivial 1%Qc)) (eget u v (tedges t)).
Proof.
  unfold clear_factors. cbn [tedges]. induction (tedges t) as [|[e s] l IH]; cbn; [reflexivity|].
  destruct (same_edge u v e); [reflexivity|exact IH].
Qed.

(** Only the variables of the cliques and separators matter to a reset. *)
Record sound (V : list string) (t : jtree) : Prop := {
  so_node : forall k c, dget k (tnodes t) = Some c -> NoDup (cvars c) /\ incl (cvars c) V;
  so_edge : forall u v s, eget u v (tedges t) = Some s -> incl (svars s) V;
  so_fit : forall u v s c, eget u v (tedges t) = Some s -> dget v (tnodes t) = Some c -> incl (svars s) (cvars c)
}.

Lemma good_sound dom' V t : JTAgain.good dom' V t -> sound V t.
Proof.
  intros [A B C]. split; [|intros; eapply B; eassumption|exact C]. intros k c E. destruct (A k c E) as [N O]. split; [exact N|apply O].
Qed.

Lemma good_clear t : sound U t -> good (clear_factors t).
Proof.
  intros [A B C]. split.
  - intros k c E. rewrite dget_clear in E. destruct (dget k (tnodes t)) as [c'|] eqn:E'; [|discriminate]. cbn in E. inversion E; subst. cbn.
    split; [apply (A _ _ E')|apply ok_trivial, (A _ _ E')].
  - intros u v s E. rewrite eget_clear in E. destruct (eget u v (tedges t)) as [s'|] eqn:E'; [|discriminate]. cbn in E. inversion E; subst. cbn.
    apply ok_trivial, (B _ _ _ E').
  - intros u v s c E Ec. rewrite eget_clear in E. rewrite dget_clear in Ec.
    destruct (eget u v (tedges t)) as [s'|] eqn:E'; [|discriminate]. destruct (dget v (tnodes t)) as [c'|] eqn:Ec'; [|discriminate].
    cbn in E, Ec. inversion E; inversion Ec; subst. cbn. eapply C; eassumption.
Qed.

Lemma assign_nodes ns : incl ns (bnodes b) -> forall t, NoDup (dkeys (tnodes t)) -> good t ->
  exists t', assign_factors (map from_node ns) t = Ok t' /\ good t' /\ tvalid t' = tvalid t.
Proof.
  unfold assign_factors. induction ns as [|n ns IH]; intros I t ND G; cbn [map foldM].
  - exists t. cbn. destruct t; auto.
  - assert (Hn : In n (bnodes b)) by (apply I; left; reflexivity).
    destruct (good_assign (subset (dkeys (fvals (from_node n)))) (from_node n) t ND G) as (l & E & G').
    + apply wf_from_node; assumption.
    + intros C HC. apply subset_spec in HC. intros v Hv. apply HC. apply (wf_keys _ _ (wf_from_node b WB n Hn)), Hv.
    + intros a _. apply (nonneg_feval b); assumption.
    + rewrite assign_factor_at, E. cbn [rbind]. assert (S := skel_assign _ _ _ _ E).
      destruct (IH (fun x Hx => I x (or_intror Hx)) (mkT l (tadj t) (tedges t) (tvalid t))) as (t' & E' & G2 & V2); [|exact G'|].
      * rewrite (skel_keys _ _ S). exact ND.
      * exists t'. auto.
Qed.

Lemma reset_good t : NoDup (dkeys (tnodes t)) -> sound U t ->
  exists t', reset_factors b t = (t', Ok tt) /\ good t' /\ tvalid t' = false.
Proof.
  intros ND S. unfold reset_factors.
  destruct (assign_nodes (bnodes b) (incl_refl _) (clear_factors t)) as (t' & E & G & _).
  - rewrite (skel_keys _ _ (skel_clear t)). exact ND.
  - apply good_clear, S.
  - rewrite E. exists (set_valid false t'). split; [reflexivity|]. split; [apply good_valid, G|reflexivity].
Qed.

(** ** Evidence *)
Definition nonneg_list (l : list Qc) : Prop := Forall (fun x => 0 <= x)%Qc l.
Definition fair (ev : evidence) : Prop := forall v q, In (v, Soft q) ev -> nonneg_list q.

Lemma soft_ratio_nonneg q old l : nonneg_list q -> nonneg_list old -> soft_ratio q old = Ok l -> length l = length q /\ nonneg_list l.
Proof.
  intros Nq No E. unfold soft_ratio in E. destruct (argmax q) as [[ref m]|] eqn:EA; [|discriminate].
  assert (Nm : (0 <= m)%Qc).
  { destruct q as [|x q]; [discriminate|]. destruct (argmax_spec (x :: q)) as (r & E1 & Hr & _); [discriminate|].
    rewrite EA in E1. assert (E2 := f_equal (fun o => match o with Some p => snd p | None => 0%Qc end) E1). cbn [snd] in E2. rewrite E2.
    apply nth_Forall_nonneg, Nq. }
  split; [rewrite (mapM_length _ _ _ E), seq_length; reflexivity|].
  apply mapM_ok in E. clear EA. induction E as [|i y is ys Ey E IH]; [constructor|]. constructor; [|exact IH].
  destruct (Nat.eqb i ref); [inversion Ey; subst; discriminate|].
  destruct (nth_error old i) as [oi|] eqn:E1; [|discriminate]. destruct (qeqb oi 0%Qc); [inversion Ey; subst; apply Qcle_refl|].
  destruct (nth_error old ref) as [oref|] eqn:E2; [|discriminate].
  assert (Ni : (0 <= oi)%Qc) by (apply nth_error_In in E1; apply (proj1 (Forall_forall _ _) No), E1).
  assert (Nr : (0 <= oref)%Qc) by (apply nth_error_In in E2; apply (proj1 (Forall_forall _ _) No), E2).
  destruct (qeqb m 0%Qc); [discriminate|].
  inversion Ey; subst. unfold Qcdiv.
  repeat apply Qcmult_nonneg; auto using Qcinv_nonneg. apply nth_Forall_nonneg, Nq.
Qed.

Lemma as_evidence_ok n e old ef : In n (bnodes b) ->
  match e with Hard _ => True | Soft q => nonneg_list q end -> match old with Some l => nonneg_list l | None => True end ->
  as_evidence (dn_name n) (dn_values n) e old = Ok ef ->
  wf_factor dom ef /\ vorder ef = [dn_name n] /\ forall a, (0 <= feval ef a)%Qc.
Proof.
  intros H Ne No E. assert (V := values_of_node b WB n H). unfold as_evidence in E. rewrite <- V in E.
  assert (K : exists l, ef = mkF (mkArr [length (dom (dn_name n))] l) [dn_name n] [(dn_name n, dom (dn_name n))] /\
     length l = length (dom (dn_name n)) /\ nonneg_list l).
  { destruct e as [x|q].
    - destruct (index_of x _) as [i|]; [|discriminate]. inversion E; subst. eexists; split; [reflexivity|].
      split; [rewrite list_set_length, repeat_length; reflexivity|].
      apply Forall_forall. intros y Hy. apply (In_nth _ _ 0%Qc) in Hy as (j & Hj & <-).
      destruct (Nat.eq_dec j i) as [->|Nj].
      + rewrite list_set_nth_eq; [discriminate|]. rewrite list_set_length in Hj. exact Hj.
      + rewrite list_set_nth_neq by congruence. rewrite nth_repeat. apply Qcle_refl.
    - destruct (Nat.eqb_spec (length q) (length (dom (dn_name n)))) as [L|]; [|discriminate]. rewrite L in E.
      destruct old as [o|].
      + destruct (soft_ratio q o) as [l|] eqn:ER; [|discriminate]. cbn in E. inversion E; subst.
        destruct (soft_ratio_nonneg q o l Ne No ER) as [L1 N1]. exists l. split; [reflexivity|]. split; [congruence|exact N1].
      + inversion E; subst. exists q. auto. }
  destruct K as (l & -> & L & Nl). split; [apply wf_single, L|]. split; [reflexivity|].
  intros a. rewrite feval_single. apply nth_Forall_nonneg, Nl.
Qed.

Lemma add_evidence_good old p t : NoDup (dkeys (tnodes t)) -> good t ->
  match snd p with Hard _ => True | Soft q => nonneg_list q end ->
  (forall l, dget (fst p) old = Some l -> nonneg_list l) ->
  good (fst (add_tree_evidence b old p t)) /\ tvalid (fst (add_tree_evidence b old p t)) = tvalid t.
Proof.
  intros ND G Ne No. unfold add_tree_evidence. destruct (get_node b (fst p)) as [n|e] eqn:EN; cbn [rbind]; [|auto].
  assert (X := EN). unfold get_node in X. destruct (find _ (bnodes b)) as [n'|] eqn:EF; [|discriminate]. inversion X; subst n'.
  apply find_some in EF as [Hn En]. apply String.eqb_eq in En. 
  destruct (as_evidence (fst p) (dn_values n) (snd p) (dget (fst p) old)) as [ef|e] eqn:EA; cbn [rbind]; [|auto].
  rewrite assign_evidence_at.
  assert (En' : fst p = dn_name n) by congruence. rewrite En' in EA.
  assert (No' : match dget (dn_name n) old with Some l => nonneg_list l | None => True end).
  { rewrite <- En'. destruct (dget (fst p) old) as [l|]; [apply No; reflexivity|exact I]. }
  destruct (as_evidence_ok n (snd p) _ ef Hn Ne No' EA) as (W & O & Nf).
  destruct (good_assign (mem (fst p)) ef t ND G W) as (l & E & G').
  - intros C HC v Hv. rewrite O in Hv. destruct Hv as [<-|[]]. apply mem_In. rewrite <- En'. exact HC.
  - intros a _. apply Nf.
  - rewrite E. cbn [fst]. auto.
Qed.

Lemma data_nonneg C f : okf C f -> nonneg_list (data (pot f)).
Proof.
  intros O. assert (W := ok_wf _ _ _ _ O). rewrite data_aget by apply W. apply Forall_forall. intros x Hx.
  apply in_map_iff in Hx as (ix & <- & Hix). apply In_indices in Hix. rewrite (feval_arr dom f ix W Hix).
  rewrite (wf_shape _ _ W) in Hix.
  rewrite (feval_deps f (asg_of (vorder f) ix) (fun v => if mem v (vorder f) then asg_of (vorder f) ix v else 0)).
  - apply (ok_nn _ _ _ _ O). intros v Hv. destruct (mem v (vorder f)) eqn:M; [|apply (zr v Hv)].
    apply mem_In in M. apply (inb_asg_of card (vorder f) ix Hix v M).
  - intros v Hv. rewrite (proj2 (mem_In v (vorder f)) Hv). reflexivity.
Qed.

Lemma marginals_ok t Q f : NoDup (dkeys (tnodes t)) -> good t -> snd (tmarginals t Q) = Ok f -> nonneg_list (data (pot f)).
Proof.
  intros ND G E. unfold tmarginals in E.
  assert (K : good (fst (if tvalid t then (t, Ok tt) else calculate_messages t)) /\
     NoDup (dkeys (tnodes (fst (if tvalid t then (t, Ok tt) else calculate_messages t))))).
  { destruct (tvalid t); [auto|]. split; [apply good_calc; [exact zr|exact G]|]. rewrite (skel_keys _ _ (skel_calc t)). exact ND. }
  destruct (if tvalid t then (t, Ok tt) else calculate_messages t) as [t' [u|e]]; [|discriminate]. cbn [fst snd] in *.
  destruct K as [G' ND'].
  destruct (find _ (tnodes t')) as [[k c]|] eqn:EF; [|discriminate].
  destruct (marginalize (cfac c) (sdiff (cvars c) Q)) as [h|] eqn:EM; [|discriminate]. cbn in E. inversion E; subst f.
  apply find_some in EF as [EF _]. assert (Ek : dget k (tnodes t') = Some c) by (apply In_dget; assumption).
  destruct (gd_node _ _ _ G' k c Ek) as [NC O].
  assert (Kn := marginalize_known dom _ _ _ (ok_wf _ _ _ _ O) EM).
  destruct (rep_marg dom U (cfac c) (vorder (cfac c)) (feval (cfac c)) (cvars c) Q) as (h' & E' & R).
  { apply ok_rep with (C := cvars c); exact O. } { exact NC. } { apply O. } { apply O. }
  { intros v Hv Nv. apply Kn. apply sdiff_spec. auto. }
  rewrite EM in E'. inversion E'; subst h'.
  assert (Wh : wf_factor dom h) by apply R. assert (Oh : okf (cvars c) h).
  { split; [exact Wh| |apply O|].
    - intros v Hv. apply (proj1 (proj2 R)) in Hv. apply filter_In in Hv as [Hv _]. apply O, Hv.
    - intros a Ra. rewrite (proj2 (proj2 (proj2 R)) a Ra). apply (sum_nonneg dom U). + apply O. + exact Ra. }
  destruct (normalize_spec dom h Wh) as (W2 & O2 & _ & V2).
  apply (data_nonneg (cvars c)). split; [exact W2|rewrite O2; apply Oh|apply O|].
  intros a Ra. rewrite V2 by (intros v Hv; apply Ra, (ok_U _ _ _ _ Oh), (ok_in _ _ _ _ Oh), Hv).
  destruct (qltb 0%Qc (ftotal dom h)) eqn:Q0; [|apply Oh, Ra]. apply qltb_true in Q0.
  apply Qcdiv_nonneg; [apply Oh, Ra|exact Q0].
Qed.

(** ** The invariant *)
Section Inv.
Variable r : rtree.

Record Kinv (t : jtree) : Prop := {
  ki_nodup : NoDup (dkeys (tnodes t));
  ki_good : good t;
  ki_calib : tvalid t = true -> rooted t r /\ calib dom U t r;
  ki_root : tnodes t = [] \/ rooted t r
}.

Lemma skel_empty t t' : skel t = skel t' -> tnodes t' = [] -> tnodes t = [].
Proof. intros S E. assert (K := skel_keys _ _ S). rewrite E in K. destruct (tnodes t) as [|[? ?] ?]; [reflexivity|discriminate]. Qed.

Lemma Kinv_calc t : Kinv t -> Kinv (fst (calculate_messages t)).
Proof.
  intros [N G C R]. assert (S := skel_calc t).
  assert (N' : NoDup (dkeys (tnodes (fst (calculate_messages t))))) by (rewrite (skel_keys _ _ S); exact N).
  assert (R' : tnodes (fst (calculate_messages t)) = [] \/ rooted (fst (calculate_messages t)) r).
  { destruct R as [E|R]; [left; eapply skel_empty; eassumption|right; eapply rooted_skel; eassumption]. }
  split; [exact N'|apply good_calc; [exact zr|exact G]| |exact R']. intros V.
  destruct R as [E|R].
  - unfold calculate_messages in V |- *. rewrite E in V |- *. cbn in V |- *. apply C, V.
  - split; [eapply rooted_skel; eassumption|]. destruct (tvalid t) eqn:V0.
    + destruct (C eq_refl) as [_ Ct]. apply (calculate_twice dom U zr t r R G Ct V0).
    + apply (calculate_calib dom U zr t r G R V0 V).
Qed.

Lemma Kinv_marginals t Q : Kinv t -> Kinv (fst (tmarginals t Q)).
Proof.
  intros K. unfold tmarginals. destruct (tvalid t).
  - exact K.
  - assert (K' := Kinv_calc t K). destruct (calculate_messages t) as [t' [u|e]]; exact K'.
Qed.

Lemma Kinv_old vs : forall t, Kinv t -> Kinv (fst (old_marginals vs t)) /\
  forall d, snd (old_marginals vs t) = Ok d -> forall v l, dget v d = Some l -> nonneg_list l.
Proof.
  induction vs as [|v vs IH]; intros t K; cbn [old_marginals].
  - split; [exact K|]. intros d E. cbn in E. inversion E; subst. discriminate.
  - assert (K1 := Kinv_marginals t [v] K). assert (M := marginals_ok t [v]).
    destruct (tmarginals t [v]) as [t1 [f|e]]; cbn [fst snd] in K1, M |- *; [|split; [exact K1|discriminate]].
    destruct (IH t1 K1) as [K2 O]. destruct (old_marginals vs t1) as [t2 [d|e]]; cbn [fst snd] in K2, O |- *; (split; [exact K2|]); [|discriminate].
    intros d' E. inversion E; subst. intros w l. cbn [dget]. destruct (String.eqb w v); [|apply (O d eq_refl)].
    intros E'. inversion E'; subst. apply (M f); [apply K|apply K|reflexivity].
Qed.

Lemma Kinv_fresh t t' : NoDup (dkeys (tnodes t)) -> (tnodes t = [] \/ rooted t r) -> skel t' = skel t -> good t' -> tvalid t' = false -> Kinv t'.
Proof.
  intros N R S G V. split.
  - rewrite (skel_keys _ _ S). exact N.
  - exact G.
  - congruence.
  - destruct R as [E|R]; [left; eapply skel_empty; eassumption|right; eapply rooted_skel; eassumption].
Qed.

Lemma Kinv_reset t : NoDup (dkeys (tnodes t)) -> (tnodes t = [] \/ rooted t r) -> sound U t ->
  snd (reset_factors b t) = Ok tt /\ Kinv (fst (reset_factors b t)) /\ tvalid (fst (reset_factors b t)) = false.
Proof.
  intros N R S. destruct (reset_good t N S) as (t' & E & G & V). assert (Sk := skel_reset b t). rewrite E in Sk |- *. cbn [fst snd] in *.
  split; [reflexivity|]. split; [|exact V]. apply (Kinv_fresh t); assumption.
Qed.

Lemma Kinv_set_evidence ev soft t : NoDup (dkeys (tnodes t)) -> (tnodes t = [] \/ rooted t r) -> sound U t -> fair ev ->
  Kinv (fst (set_evidence b ev soft t)).
Proof.
  intros N R S F. unfold set_evidence. destruct (Kinv_reset t N R S) as (E1 & K1 & V1).
  destruct (reset_factors b t) as [t1 x1]. cbn [fst snd] in *. subst x1.
  match goal with |- Kinv (fst (let (_, _) := ?x in _)) => assert (X : Kinv (fst x) /\ forall d, snd x = Ok d ->
     tvalid (fst x) = false /\ forall v l, dget v d = Some l -> nonneg_list l); [|destruct x as [t2 old]] end.
  { destruct soft; [|split; [exact K1|]; intros d E; cbn in E; inversion E; subst; split; [exact V1|discriminate]].
    assert (K2 := Kinv_calc t1 K1). destruct (calculate_messages t1) as [t' [u|e]]; cbn [fst snd] in K2 |- *; [|split; [exact K2|discriminate]].
    destruct (Kinv_old (dkeys ev) t' K2) as [K3 O]. destruct (old_marginals (dkeys ev) t') as [t'' [d|e]]; cbn [fst snd] in K3, O |- *; [|split; [exact K3|discriminate]].
    destruct (Kinv_reset t'') as (E4 & K4 & V4); [apply K3|apply K3|eapply good_sound; apply K3|].
    destruct (reset_factors b t'') as [t3 x3]. cbn [fst snd] in *. subst x3. cbn [fst snd]. split; [exact K4|].
    intros d' E. inversion E; subst. split; [exact V4|]. apply (O d' eq_refl). }
  cbn [fst snd] in X. destruct X as [K2 X]. destruct old as [d|e]; [|exact K2]. destruct (X d eq_refl) as [V2 O]. clear X.
  assert (H : forall l t, incl l ev -> Kinv t -> tvalid t = false -> Kinv (fst (each (add_tree_evidence b d) l t))).
  { induction l as [|p l IH]; intros t0 Il K0 V0; cbn [each]; [exact K0|].
    assert (A := add_evidence_good d p t0 (ki_nodup _ K0) (ki_good _ K0)).
    assert (Sk := skel_add_ev b d p t0).
    assert (Np : match snd p with Hard _ => True | Soft q => nonneg_list q end).
    { destruct p as [v [x|q]]; cbn; [exact I|]. apply (F v q). apply Il. left; reflexivity. }
    destruct (A Np (O (fst p))) as [G' V']. clear A.
    assert (K' : Kinv (fst (add_tree_evidence b d p t0))).
    { apply (Kinv_fresh t0); [apply K0|apply K0|exact Sk|exact G'|congruence]. }
    destruct (add_tree_evidence b d p t0) as [t1' [u|e]]; cbn [fst] in *; [|exact K'].
    apply IH; [intros y Hy; apply Il; right; exact Hy|exact K'|congruence]. }
  assert (K3 := H ev t2 (incl_refl _) K2 V2).
  destruct (each (add_tree_evidence b d) ev t2) as [t3 [u|e]]; cbn [fst] in *; [|exact K3]. apply Kinv_calc, K3.
Qed.
End Inv.
End One.

(** ** Creation *)
Lemma length_incl_keys {A} (l : list string) (d : dict A) : NoDup l -> incl l (dkeys d) -> length l <= length d.
Proof. intros N I. assert (L := NoDup_incl_length N I). unfold dkeys in L. rewrite map_length in L. exact L. Qed.

Lemma key_inj names (L : list (list string)) : decodable names -> NoDup L -> (forall c, In c L -> NoDup c /\ c <> [] /\ incl c names) ->
  NoDup (map key_of L) /\ ~ In "" (map key_of L).
Proof.
  intros D ND H. split.
  - induction ND as [|c L N ND IH]; cbn; [constructor|]. constructor; [|apply IH; intros d Hd; apply H; right; exact Hd].
    intros K. apply in_map_iff in K as (d & E & Hd). apply N.
    destruct (H c) as (A1 & A2 & A3); [left; reflexivity|]. destruct (H d) as (B1 & B2 & B3); [right; exact Hd|].
    rewrite <- (D d c B3 A3 B1 A1 E). exact Hd.
  - intros K. apply in_map_iff in K as (c & E & Hc). destruct (H c Hc) as (A1 & A2 & A3). apply A2.
    apply (D c []); auto. { intros ? []. } constructor.
Qed.

Section Sessions.
Context {SO : SetOrder}.
Variable b0 : bn.
Hypothesis WB0 : wf_bn b0.
Hypothesis WG0 : wf_graph b0.
Hypothesis NN0 : nonneg_bn b0.
Hypothesis DC0 : decodable (bnames b0).

Lemma create_inv order t : create_jointree b0 order = Ok t -> exists r, Kinv b0 r t.
Proof.
  intros E. unfold create_jointree in E. apply rbind_ok in E as (o & Eo & E). apply rbind_ok in E as (cs & Ec & E).
  apply rbind_ok in E as (L & El & E).
  destruct (moral_ug b0 WB0 WG0) as (UG & KG).
  destruct (cluster_seq_facts (bnames b0) o _ cs UG) as (No & Io & Hh & Hc).
  { intros v Hv. rewrite KG in Hv. apply (Permutation_in v (Permutation_sym (wg_nodes _ WG0))), Hv. } { exact Ec. }
  assert (NDc : NoDup cs) by (apply (NoDup_map_inv head); rewrite Hh; exact No).
  destruct (prune_some cs NDc) as (L' & El' & NL & IL & _). rewrite El in El'. inversion El'; subst L'.
  assert (HL : forall c, In c L -> NoDup c /\ c <> [] /\ incl c (bnames b0)) by (intros c H; apply Hc, IL, H).
  destruct (key_inj (bnames b0) L DC0 NL HL) as [NK NE].
  assert (Sk := skel_assign_factors _ _ _ E).
  destruct L as [|c L].
  - exists (RT "" []). destruct (assign_nodes b0 WB0 NN0 (bnodes b0) (incl_refl _) (build_tree [])) as (t' & E' & G & V).
    + constructor. + split; discriminate.
    + rewrite E in E'. inversion E'; subst t'. assert (T0 : tnodes t = []) by (eapply skel_empty; [exact Sk|reflexivity]).
      split; [rewrite T0; constructor|exact G|rewrite V; discriminate|left; exact T0].
  - destruct (build_forest (c :: L)) as (r & F); [discriminate|exact NK|]. exists r.
    assert (So : good (values_of b0) (bnames b0) (build_tree (c :: L))).
    { split.
      - intros k d Ed. destruct (fo_cl _ _ _ F k d Ed) as (A & _ & B). rewrite B. split; [apply HL, A|]. apply ok_trivial, HL, A.
      - intros u v s Es. destruct (fo_se _ _ _ F u v s Es) as (Hu & _ & -> & I & _). apply ok_trivial.
        apply (fo_keys _ _ _ F) in Hu. apply dget_key in Hu as (d & Ed).
        intros x Hx. apply (HL (cvars d)); [apply (fo_cl _ _ _ F u d Ed)|apply (I d Ed x Hx)].
      - intros u v s d Es. destruct (fo_se _ _ _ F u v s Es) as (_ & _ & _ & _ & I). apply I. }
    assert (Ro : rooted (build_tree (c :: L)) r).
    { split; [apply F|apply F| |apply F| |].
      - intros K. apply NE, (fo_rk _ _ _ F), K.
      - split; [|apply F]. intros k Hk. apply dget_key. apply (fo_keys _ _ _ F), (fo_rk _ _ _ F), Hk.
      - apply length_incl_keys; [apply F|]. intros k Hk. apply (fo_keys _ _ _ F), (fo_rk _ _ _ F), Hk. }
    destruct (assign_nodes b0 WB0 NN0 (bnodes b0) (incl_refl _) (build_tree (c :: L)) (fo_nodup _ _ _ F) So) as (t' & E' & G & V).
    rewrite E in E'. inversion E'; subst t'.
    apply (Kinv_fresh b0 r (build_tree (c :: L))); [apply F|right; exact Ro|exact Sk|exact G|].
    rewrite V. clear. assert (H : forall L, tvalid (build_tree L) = false).
    { induction L0 as [|c0 L0 IH]; cbn [build_tree]; [reflexivity|].
      destruct (jprop c0 L0); [exact IH|]. destruct (find _ L0); exact IH. }
    apply H.
Qed.

Lemma same_arcs_names b b' : same_arcs b b' -> bnames b = bnames b'.
Proof. unfold same_arcs, bnames. intros E. apply (f_equal (map fst)) in E. rewrite !map_map in E. exact E. Qed.

Lemma session_inv t : session b0 t -> exists r b, same_arcs b0 b /\ wf_bn b /\ Kinv b r t.
Proof.
  induction 1 as [order t E|b ev soft t S IH SA WB NN F|b t S IH SA WB NN|t S IH|Q t S IH].
  - destruct (create_inv order t E) as (r & K). exists r, b0. split; [reflexivity|auto].
  - destruct IH as (r & b' & SA' & WB' & K). exists r, b. split; [exact SA|]. split; [exact WB|].
    assert (EN : bnames b' = bnames b) by (rewrite <- (same_arcs_names _ _ SA'); apply same_arcs_names, SA).
    apply Kinv_set_evidence; auto; try apply K. rewrite <- EN. eapply good_sound, K.
  - destruct IH as (r & b' & SA' & WB' & K). exists r, b. split; [exact SA|]. split; [exact WB|].
    assert (EN : bnames b' = bnames b) by (rewrite <- (same_arcs_names _ _ SA'); apply same_arcs_names, SA).
    apply Kinv_reset; auto; try apply K. rewrite <- EN. eapply good_sound, K.
  - destruct IH as (r & b' & SA' & WB' & K). exists r, b'. split; [exact SA'|]. split; [exact WB'|]. apply Kinv_calc; assumption.
  - destruct IH as (r & b' & SA' & WB' & K). exists r, b'. split; [exact SA'|]. split; [exact WB'|]. apply Kinv_marginals; assumption.
Qed.

(** Message passing on a tree that already is consistent changes no clique
    table; nor do further queries. *)
Lemma session_again t : session b0 t -> tvalid t = true ->
  let t' := fst (calculate_messages t) in
  tnodes t' = tnodes t /\ tadj t' = tadj t /\ tvalid t' = true /\
  (snd (calculate_messages t) = Ok tt \/ snd (calculate_messages t) = Err FloatingPointError /\ zero_separator t') /\
  (forall Q, snd (tmarginals t' Q) = snd (tmarginals t Q)).
Proof.
  intros S V. destruct (session_inv t S) as (r & b & _ & WB & [N G C _]). destruct (C V) as [R Ct].
  destruct (calculate_twice (values_of b) (bnames b) (zero_range b WB) t r R G Ct V) as (A & B & V' & G' & C' & F).
  cbn zeta. split; [exact A|]. split; [exact B|]. split; [exact V'|]. split.
  - destruct F as [F|(F & Z)]; [left; exact F|right]. split; [exact F|].
    destruct Z as (e & s & He & Es & Z). exists (snd e), (fst e), s. split; [exact Es|].
    assert (O := gd_edge _ _ _ G' _ _ _ Es).
    destruct Z as [Z1 Z2]. split; [exact Z1|].
    assert (W := ok_wf _ _ _ _ O). rewrite data_aget by apply W.
    assert (Sh := wf_shape _ _ W). rewrite Z1 in Sh. cbn in Sh. rewrite Sh. cbn [indices map]. f_equal.
    unfold feval in Z2. rewrite Z1 in Z2. exact Z2.
  - intros Q. unfold tmarginals. rewrite V, V', A. reflexivity.
Qed.
End Sessions.
