(** No operation on a join tree makes a table over more variables than a cluster has. *)
From Verif Require Import Base BaseFacts NDArray NDArrayFacts SumCalc Factor FactorFacts Exact Spec SpecFacts VEProof VEProof2 Order OrderSpec OrderProof
  JoinTree HuginPure Hugin JTProof JTProof2 JTBuild JTBuild2 JTBuild3 TreeSpec JTTop JTAgain JTAgain2 JTAgain3 SepSpec TablesSpec TablesTop
  RoundedTree RoundedTreeProof RoundedSoft RoundedSoftTop TreeTables TreeTablesSpec.

Section Ops.
Context {SO : SetOrder}.
Variables (x : exc) (B : nat) (b : bn).
Hypothesis WB : wf_bn b.
Notation dom := (values_of b).
Notation wf := (wf_factor dom).
Notation mul := (capped_mul x B).
Notation marg := (capped_marg x B).
Notation inv := (capped_invert x B).

(** A table over variables of [C]. *)
Definition sc (C : list string) (f : factor) : Prop := wf f /\ incl (vorder f) C.
Definition small (C : list string) : Prop := forall K, NoDup K -> incl K C -> entries b K <= B.

Lemma sc_size C f : small C -> sc C f -> length (data (pot f)) <= B.
Proof. intros S [W I]. rewrite (size_entries b) by exact W. apply S; [apply W|exact I]. Qed.

Lemma capped_id r : (forall f, r = Ok f -> length (data (pot f)) <= B) -> capped x B r = r.
Proof. destruct r as [f|e]; cbn; [|reflexivity]. intros H. rewrite (proj2 (Nat.leb_le _ _) (H f eq_refl)). reflexivity. Qed.

Lemma sc_incl C D f : sc C f -> incl C D -> sc D f.
Proof. intros [W I] J. split; [exact W|]. intros v Hv. apply J, I, Hv. Qed.

Lemma sc_mul C f g h : sc C f -> sc C g -> fmul f g = Ok h -> sc C h.
Proof.
  intros [Wf If] [Wg Ig] E. destruct (fcombine_spec dom Qcmult f g Wf Wg) as (h' & E' & W & _ & S & _).
  assert (h' = h) by (unfold fmul in E; congruence). subst h'.
  split; [exact W|]. intros v Hv. apply S in Hv as [Hv|Hv]; [apply If|apply Ig]; exact Hv.
Qed.

Lemma mul_eq C f g : small C -> sc C f -> sc C g -> mul f g = fmul f g.
Proof. intros S Sf Sg. apply capped_id. intros h E. apply (sc_size C); [exact S|]. exact (sc_mul C f g h Sf Sg E). Qed.

Lemma sc_marg1 C f v h : sc C f -> marginalize1 f v = Ok h -> sc C h.
Proof.
  intros [W I] E. destruct (In_dec_s v (vorder f)) as [H|H].
  - destruct (marginalize1_spec dom f v W H) as (h' & E' & W' & O & _). assert (h' = h) by congruence. subst h'.
    split; [exact W'|]. rewrite O. intros w Hw. apply remove1_In in Hw; [apply I, Hw|apply W].
  - rewrite (marginalize1_absent dom f v W H) in E. discriminate.
Qed.

Lemma marg_eq C f v : small C -> sc C f -> marg f v = marginalize1 f v.
Proof. intros S Sf. apply capped_id. intros h E. apply (sc_size C); [exact S|]. exact (sc_marg1 C f v h Sf E). Qed.

Lemma margs_eq C vs : small C -> forall f, sc C f -> marginalize_by marg f vs = marginalize_by marginalize1 f vs /\
  forall h, marginalize_by marginalize1 f vs = Ok h -> sc C h.
Proof.
  intros S. unfold marginalize_by. induction vs as [|v vs IH]; intros f Sf; cbn [foldM].
  - split; [reflexivity|]. intros h E. injection E as <-. exact Sf.
  - rewrite (marg_eq C f v S Sf). destruct (marginalize1 f v) as [g|e] eqn:E; cbn [rbind]; [|split; [reflexivity|discriminate]].
    apply IH. exact (sc_marg1 C f v g Sf E).
Qed.

Lemma inv_eq C f : small C -> sc C f -> inv f = finvert f /\ forall h, finvert f = Ok h -> sc C h.
Proof.
  intros S Sf. assert (H : forall h, finvert f = Ok h -> sc C h).
  { intros h E. unfold finvert in E. destruct Sf as [W I].
    destruct (vorder f) as [|v l] eqn:EV.
    - destruct (existsb _ _); [discriminate|]. injection E as <-. rewrite <- EV. split; [apply wf_amap, W|]. cbn [vorder]. rewrite EV. intros ? [].
    - injection E as <-. rewrite <- EV. split; [apply wf_amap, W|]. cbn [vorder]. rewrite EV. exact I. }
  split; [|exact H]. apply capped_id. intros h E. apply (sc_size C); [exact S|apply H, E].
Qed.

Lemma div_eq C f g : small C -> sc C f -> sc C g -> div_by mul inv f g = div_by fmul finvert f g /\
  forall h, div_by fmul finvert f g = Ok h -> sc C h.
Proof.
  intros S Sf Sg. unfold div_by. destruct (subset _ _); [|split; [reflexivity|discriminate]].
  destruct (inv_eq C g S Sg) as [E H]. rewrite E. destruct (finvert g) as [i|e]; cbn [rbind]; [|split; [reflexivity|discriminate]].
  rewrite (mul_eq C f i S Sf (H i eq_refl)). split; [reflexivity|]. intros h Eh. exact (sc_mul C f i h Sf (H i eq_refl) Eh).
Qed.

(** ** Trees *)
Record fine (t : jtree) : Prop := {
  fi_keys : NoDup (dkeys (tnodes t));
  fi_node : forall k c, dget k (tnodes t) = Some c -> small (cvars c) /\ sc (cvars c) (cfac c);
  fi_edge : forall u v s, eget u v (tedges t) = Some s -> sc (svars s) (sfac s);
  fi_fit : forall u v s c, eget u v (tedges t) = Some s -> dget v (tnodes t) = Some c -> incl (svars s) (cvars c)
}.

Lemma keys_set_cfac k f t : dkeys (tnodes (set_cfac k f t)) = dkeys (tnodes t).
Proof. exact (skel_keys _ _ (skel_set_cfac k f t)). Qed.
Lemma keys_set_sfac u v f t : dkeys (tnodes (set_sfac u v f t)) = dkeys (tnodes t).
Proof. exact (skel_keys _ _ (skel_set_sfac u v f t)). Qed.

Lemma fine_set_cfac t k c f : fine t -> dget k (tnodes t) = Some c -> sc (cvars c) f -> fine (set_cfac k f t).
Proof.
  intros [G0 G1 G2 G3] E O. split.
  - rewrite keys_set_cfac. exact G0.
  - intros k' c' E'. rewrite dget_set_cfac, E in E'. destruct (String.eqb k' k); [|eauto]. cbn in E'. inversion E'; subst. cbn.
    split; [apply (G1 k c E)|exact O].
  - rewrite tedges_set_cfac. exact G2.
  - rewrite tedges_set_cfac. intros u v s c' Es E'. rewrite dget_set_cfac, E in E'.
    destruct (String.eqb_spec v k) as [->|]; [|eauto]. cbn in E'. inversion E'; subst. cbn. eauto.
Qed.

Lemma fine_set_sfac t u v s f : fine t -> eget u v (tedges t) = Some s -> sc (svars s) f -> fine (set_sfac u v f t).
Proof.
  intros [G0 G1 G2 G3] E O. split.
  - rewrite keys_set_sfac. exact G0.
  - rewrite tnodes_set_sfac. exact G1.
  - intros y z s' E'. rewrite eget_set_sfac, E in E'. destruct (same_edge y z (u, v)); [|eauto]. cbn in E'. inversion E'; subst. exact O.
  - rewrite tnodes_set_sfac. intros y z s' c E' Ec. rewrite eget_set_sfac, E in E'.
    destruct (same_edge y z (u, v)) eqn:SE; [|eauto]. cbn in E'. inversion E'; subst. cbn.
    apply same_edge_spec in SE as [SE|SE]; inversion SE; subst; [eauto|]. eapply G3; [|exact Ec]. rewrite eget_sym. exact E.
Qed.

Lemma fine_valid z t : fine t -> fine (set_valid z t).
Proof. intros [A C D E]. split; assumption. Qed.

(** The table of a message: over the separator if nothing else was left. *)
Lemma sent_scope C S f h : sc C f -> marginalize f (sdiff C S) = Ok h -> sc S h.
Proof.
  intros [W I] E. assert (K := marginalize_known dom _ _ _ W E).
  assert (H : forall vs f h, wf f -> marginalize f vs = Ok h -> wf h /\ forall v, In v (vorder h) -> In v (vorder f) /\ ~ In v vs).
  { clear. intros vs. unfold marginalize. induction vs as [|v vs IH]; intros f h W E; cbn [foldM] in E.
    - injection E as <-. split; [exact W|]. intros v Hv. split; [exact Hv|intros []].
    - destruct (In_dec_s v (vorder f)) as [Hv|Hv]; [|rewrite (marginalize1_absent dom f v W Hv) in E; discriminate].
      destruct (marginalize1_spec dom f v W Hv) as (g & Eg & Wg & O & _). rewrite Eg in E. cbn [rbind] in E.
      destruct (IH g h Wg E) as [Wh J]. split; [exact Wh|]. intros w Hw. destruct (J w Hw) as [J1 J2]. rewrite O in J1.
      apply remove1_In in J1; [|apply W]. split; [tauto|]. intros [<-|F]; tauto. }
  destruct (H _ _ _ W E) as [Wh J]. split; [exact Wh|]. intros v Hv. destruct (J v Hv) as [J1 J2].
  destruct (In_dec_s v S) as [Y|Y]; [exact Y|]. exfalso. apply J2, sdiff_spec. split; [apply I, J1|exact Y].
Qed.

Lemma send_eq u v t : fine t -> send_by mul marg inv u v t = send_by fmul marginalize1 finvert u v t /\
  fine (fst (send_by fmul marginalize1 finvert u v t)).
Proof.
  intros F. unfold send_by, dget_err. destruct (dget u (tnodes t)) as [c|] eqn:Ec; cbn [rbind]; [|split; [reflexivity|exact F]].
  destruct (eget u v (tedges t)) as [s|] eqn:Es; cbn [rbind]; [|split; [reflexivity|exact F]].
  destruct (fi_node _ F u c Ec) as [Sc Tc].
  destruct (margs_eq (cvars c) (sdiff (cvars c) (svars s)) Sc (cfac c) Tc) as [EM _]. rewrite EM.
  destruct (marginalize_by marginalize1 (cfac c) (sdiff (cvars c) (svars s))) as [new|e] eqn:En; cbn [rbind]; [|split; [reflexivity|exact F]].
  assert (Sn : sc (svars s) new) by exact (sent_scope (cvars c) (svars s) (cfac c) new Tc En).
  destruct (dget v (tnodes t)) as [d|] eqn:Ed; cbn [rbind]; [|split; [reflexivity|exact F]].
  destruct (fi_node _ F v d Ed) as [Sd Td].
  assert (I := fi_fit _ F u v s d Es Ed). assert (Ss := fi_edge _ F u v s Es).
  destruct (div_eq (cvars d) new (sfac s) Sd (sc_incl _ _ _ Sn I) (sc_incl _ _ _ Ss I)) as [EQ HQ]. rewrite EQ.
  destruct (div_by fmul finvert new (sfac s)) as [q|e] eqn:Eq; cbn [rbind]; [|split; [reflexivity|exact F]].
  assert (Sq := HQ q eq_refl). rewrite (mul_eq (cvars d) (cfac d) q Sd Td Sq).
  destruct (fmul (cfac d) q) as [f|e] eqn:Ef; cbn [rbind]; [|split; [reflexivity|exact F]].
  split; [reflexivity|]. cbn [fst].
  apply (fine_set_sfac _ u v s); [|rewrite tedges_set_cfac; exact Es|exact Sn].
  apply (fine_set_cfac _ v d); [exact F|exact Ed|]. exact (sc_mul (cvars d) (cfac d) q f Td Sq Ef).
Qed.

Lemma each_eq {A} (f g : A -> jtree -> jtree * res unit) l : (forall y t, In y l -> fine t -> f y t = g y t /\ fine (fst (g y t))) ->
  forall t, fine t -> each f l t = each g l t /\ fine (fst (each g l t)).
Proof.
  induction l as [|y l IH]; intros H t F; cbn [each]; [split; [reflexivity|exact F]|].
  destruct (H y t (or_introl eq_refl) F) as [E F1]. rewrite E. destruct (g y t) as [t1 [u|e]]; cbn [fst] in *; [|split; [reflexivity|exact F1]].
  apply IH; [|exact F1]. intros z t0 Hz. apply H. right; exact Hz.
Qed.

Lemma pull_eq fuel : forall k p t, fine t -> pull_by mul marg inv fuel k p t = pull_by fmul marginalize1 finvert fuel k p t /\
  fine (fst (pull_by fmul marginalize1 finvert fuel k p t)).
Proof.
  induction fuel as [|n IH]; intros k p t F; cbn [pull_by]; [split; [reflexivity|exact F]|].
  match goal with |- context[each _ ?l t] => destruct (each_eq (fun k0 => pull_by mul marg inv n k0 (Some k)) (fun k0 => pull_by fmul marginalize1 finvert n k0 (Some k)) l (fun y t0 _ => IH y (Some k) t0) t F) as [E F1]; rewrite E; destruct (each (fun k0 => pull_by fmul marginalize1 finvert n k0 (Some k)) l t) as [t1 [u|e]] end;
    cbn [fst] in F1; [|split; [reflexivity|exact F1]].
  destruct p as [[|a s]|]; [split; [reflexivity|exact F1]|apply send_eq, F1|split; [reflexivity|exact F1]].
Qed.

Lemma push_eq fuel : forall k p t, fine t -> push_by mul marg inv fuel k p t = push_by fmul marginalize1 finvert fuel k p t /\
  fine (fst (push_by fmul marginalize1 finvert fuel k p t)).
Proof.
  induction fuel as [|n IH]; intros k p t F; cbn [push_by]; [split; [reflexivity|exact F]|].
  apply each_eq; [|exact F]. intros y t0 _ F0. destruct (send_eq k y t0 F0) as [E F1]. rewrite E.
  destruct (send_by fmul marginalize1 finvert k y t0) as [t1 [u|e]]; cbn [fst] in F1; [apply IH, F1|split; [reflexivity|exact F1]].
Qed.

Lemma calc_eq t : fine t -> calculate_messages_by mul marg inv t = calculate_messages_by fmul marginalize1 finvert t /\
  fine (fst (calculate_messages_by fmul marginalize1 finvert t)).
Proof.
  intros F. unfold calculate_messages_by. destruct (dkeys (tnodes t)) as [|root rest]; [split; [reflexivity|exact F]|].
  destruct (pull_eq (S (length (tnodes t))) root None t F) as [E1 F1]. rewrite E1.
  destruct (pull_by fmul marginalize1 finvert (S (length (tnodes t))) root None t) as [t1 [u|e]]; cbn [fst] in F1.
  2: split; [reflexivity|destruct e; exact F1].
  destruct (push_eq (S (length (tnodes t))) root None t1 F1) as [E2 F2]. rewrite E2.
  destruct (push_by fmul marginalize1 finvert (S (length (tnodes t))) root None t1) as [t2 [u2|e]]; cbn [fst] in F2.
  - split; [reflexivity|apply fine_valid, F2].
  - split; [reflexivity|destruct e; exact F2].
Qed.

Lemma tmarg_eq t Q : fine t -> tmarginals_by mul marg inv normalize t Q = tmarginals_by fmul marginalize1 finvert normalize t Q /\
  fine (fst (tmarginals_by fmul marginalize1 finvert normalize t Q)).
Proof.
  intros F. unfold tmarginals_by.
  assert (H : (if tvalid t then (t, Ok tt) else calculate_messages_by mul marg inv t) =
     (if tvalid t then (t, Ok tt) else calculate_messages_by fmul marginalize1 finvert t) /\
     fine (fst (if tvalid t then (t, Ok tt) else calculate_messages_by fmul marginalize1 finvert t))).
  { destruct (tvalid t); [split; [reflexivity|exact F]|apply calc_eq, F]. }
  destruct H as [E F1]. rewrite E. destruct (if tvalid t then (t, Ok tt) else calculate_messages_by fmul marginalize1 finvert t) as [t1 [u|e]]; cbn [fst] in F1.
  - destruct (find _ (tnodes t1)) as [[k c]|] eqn:EF; [|split; [reflexivity|exact F1]].
    apply find_some in EF as [EF _]. assert (Ek : dget k (tnodes t1) = Some c) by (apply In_dget; [apply F1|exact EF]).
    destruct (fi_node _ F1 k c Ek) as [Sc Tc]. destruct (margs_eq (cvars c) (sdiff (cvars c) Q) Sc (cfac c) Tc) as [EM _]. rewrite EM.
    split; [reflexivity|exact F1].
  - split; [reflexivity|exact F1].
Qed.

(** ** Tables and evidence *)
Lemma fine_assign P f t : fine t -> wf f -> (forall C, P C = true -> incl (vorder f) C) ->
  forall l, assign_at P f (tnodes t) = Ok l -> fine (mkT l (tadj t) (tedges t) (tvalid t)).
Proof.
  intros F W I l E. destruct (find (fun p => P (cvars (snd p))) (tnodes t)) as [[k c]|] eqn:EF.
  - assert (E1 := find_some _ _ EF). destruct E1 as [Hin HP]. cbn [snd] in HP.
    assert (Ek : dget k (tnodes t) = Some c) by (apply In_dget; [apply F|exact Hin]).
    destruct (fi_node _ F k c Ek) as [Sc Tc].
    rewrite (assign_at_some P f _ k c (fi_keys _ F) EF) in E. destruct (fmul (cfac c) f) as [h|] eqn:Eh; [|discriminate]. cbn [rbind] in E. injection E as <-.
    rewrite (mkT_set_cfac k c h t Ek). eapply fine_set_cfac; [exact F|exact Ek|]. apply (sc_mul (cvars c) (cfac c) f h Tc); [|exact Eh]. split; [exact W|apply I, HP].
  - rewrite (assign_at_none P f _ EF) in E. injection E as <-. destruct t; exact F.
Qed.

Lemma fine_in t k c : fine t -> In (k, c) (tnodes t) -> small (cvars c) /\ sc (cvars c) (cfac c).
Proof. intros F H. apply (fi_node _ F k), In_dget; [apply F|exact H]. Qed.

Lemma factor_eq f l : wf f -> (forall k c, In (k, c) l -> small (cvars c) /\ sc (cvars c) (cfac c)) ->
  assign_factor_by mul f l = assign_factor_by fmul f l.
Proof.
  intros W. induction l as [|[k c] l IH]; intros H; cbn [assign_factor_by]; [reflexivity|].
  destruct (subset (dkeys (fvals f)) (cvars c)) eqn:S.
  - destruct (H k c (or_introl eq_refl)) as [Sc Tc]. rewrite (mul_eq (cvars c) (cfac c) f Sc Tc); [reflexivity|].
    split; [exact W|]. intros v Hv. apply subset_spec in S. apply S, (wf_keys _ _ W), Hv.
  - rewrite IH; [reflexivity|]. intros k' c' Hk. apply (H k' c'). right; exact Hk.
Qed.

Lemma evidence_eq v f l : wf f -> vorder f = [v] -> (forall k c, In (k, c) l -> small (cvars c) /\ sc (cvars c) (cfac c)) ->
  assign_evidence_by mul v f l = assign_evidence_by fmul v f l.
Proof.
  intros W O. induction l as [|[k c] l IH]; intros H; cbn [assign_evidence_by]; [reflexivity|].
  destruct (mem v (cvars c)) eqn:S.
  - destruct (H k c (or_introl eq_refl)) as [Sc Tc]. rewrite (mul_eq (cvars c) (cfac c) f Sc Tc); [reflexivity|].
    split; [exact W|]. rewrite O. intros w [<-|[]]. apply mem_In, S.
  - rewrite IH; [reflexivity|]. intros k' c' Hk. apply (H k' c'). right; exact Hk.
Qed.

Lemma factors_eq ns : incl ns (bnodes b) -> forall t, fine t ->
  assign_factors_by mul (map from_node ns) t = assign_factors_by fmul (map from_node ns) t /\
  forall t', assign_factors_by fmul (map from_node ns) t = Ok t' -> fine t'.
Proof.
  unfold assign_factors_by. induction ns as [|n ns IH]; intros I t F; cbn [map foldM].
  - split; [reflexivity|]. cbn [rbind]. intros t' E. injection E as <-. destruct t; exact F.
  - assert (Wn : wf (from_node n)) by (apply wf_from_node; [exact WB|apply I; left; reflexivity]).
    rewrite (factor_eq (from_node n) (tnodes t) Wn (fun k c => fine_in t k c F)).
    destruct (assign_factor_by fmul (from_node n) (tnodes t)) as [l|e] eqn:E; cbn [rbind]; [|split; [reflexivity|discriminate]].
    rewrite assign_factor_same, assign_factor_at in E.
    assert (F1 : fine (mkT l (tadj t) (tedges t) (tvalid t))).
    { apply (fine_assign _ _ t F Wn) with (2 := E). intros C HC. apply subset_spec in HC. intros v Hv. apply HC, (wf_keys _ _ Wn), Hv. }
    exact (IH (fun y Hy => I y (or_intror Hy)) _ F1).
Qed.

Lemma sc_trivial C : sc C (trivial 1%Qc).
Proof. split; [apply wf_trivial|intros ? []]. Qed.
End Ops.

(** Only the variables of the cliques and separators matter to a reset. *)
Record framed (b : bn) (B : nat) (t : jtree) : Prop := {
  fr_keys : NoDup (dkeys (tnodes t));
  fr_node : forall k c, dget k (tnodes t) = Some c -> small B b (cvars c);
  fr_fit : forall u v s c, eget u v (tedges t) = Some s -> dget v (tnodes t) = Some c -> incl (svars s) (cvars c)
}.

Lemma fine_clear B b t : framed b B t -> fine B b (clear_factors t).
Proof.
  intros [A0 A C]. split.
  - rewrite (skel_keys _ _ (skel_clear t)). exact A0.
  - intros k c E. rewrite dget_clear in E. destruct (dget k (tnodes t)) as [c'|] eqn:E'; [|discriminate]. cbn in E. inversion E; subst. cbn.
    split; [apply (A _ _ E')|apply sc_trivial].
  - intros u v s E. rewrite eget_clear in E. destruct (eget u v (tedges t)) as [s'|] eqn:E'; [|discriminate]. cbn in E. inversion E; subst. cbn.
    apply sc_trivial.
  - intros u v s c E Ec. rewrite eget_clear in E. rewrite dget_clear in Ec.
    destruct (eget u v (tedges t)) as [s'|] eqn:E'; [|discriminate]. destruct (dget v (tnodes t)) as [c'|] eqn:Ec'; [|discriminate].
    cbn in E, Ec. inversion E; inversion Ec; subst. cbn. eapply C; eassumption.
Qed.

Lemma fine_framed B b t : fine B b t -> framed b B t.
Proof. intros [A C D E]. split; [exact A|intros k c H; apply (C k c H)|exact E]. Qed.

Section Calls.
Context {SO : SetOrder}.
Variables (x : exc) (B : nat) (b : bn).
Hypothesis WB : wf_bn b.
Notation dom := (values_of b).
Notation fine := (fine B b).

Lemma reset_eq t : framed b B t -> capped_reset x B b t = reset_factors b t /\ fine (fst (reset_factors b t)).
Proof.
  intros F. rewrite <- (proj1 (proj2 tree_by_exact)). unfold capped_reset, reset_factors_by.
  assert (F0 := fine_clear B b t F). destruct (factors_eq x B b WB (bnodes b) (incl_refl _) _ F0) as [E H]. rewrite E.
  destruct (assign_factors_by fmul (map from_node (bnodes b)) (clear_factors t)) as [t'|e]; (split; [reflexivity|]); cbn [fst]; [apply fine_valid, H; reflexivity|exact F0].
Qed.

Lemma messages_eq t : fine t -> capped_messages x B t = calculate_messages t /\ fine (fst (calculate_messages t)).
Proof. intros F. rewrite <- calculate_same. apply calc_eq, F. Qed.

Lemma query_eq t Q : fine t -> capped_tree x B t Q = tmarginals t Q /\ fine (fst (tmarginals t Q)).
Proof. intros F. rewrite <- (proj2 (proj2 (proj2 (proj2 tree_by_exact)))). apply tmarg_eq, F. Qed.

Lemma evidence_shape n e old ef : In n (bnodes b) -> as_evidence (dn_name n) (dn_values n) e old = Ok ef -> wf_factor dom ef /\ vorder ef = [dn_name n].
Proof.
  intros H E. assert (V := values_of_node b WB n H). unfold as_evidence in E. rewrite <- V in E.
  assert (K : exists l, ef = mkF (mkArr [length (dom (dn_name n))] l) [dn_name n] [(dn_name n, dom (dn_name n))] /\ length l = length (dom (dn_name n))).
  { destruct e as [y|q].
    - destruct (index_of y _) as [i|]; [|discriminate]. inversion E; subst. eexists; split; [reflexivity|].
      rewrite list_set_length, repeat_length; reflexivity.
    - destruct (Nat.eqb_spec (length q) (length (dom (dn_name n)))) as [L|]; [|discriminate]. rewrite L in E.
      destruct old as [o|].
      + destruct (soft_ratio q o) as [l|] eqn:ER; [|discriminate]. cbn in E. inversion E; subst. exists l. split; [reflexivity|].
        unfold soft_ratio in ER. destruct (argmax q) as [[ref m]|]; [|discriminate]. rewrite (mapM_length _ _ _ ER), seq_length. exact L.
      + inversion E; subst. exists q. auto. }
  destruct K as (l & -> & L). split; [apply wf_single, L|reflexivity].
Qed.

Lemma add_eq old p t : fine t -> add_posterior_by (capped_mul x B) (soft_ratio_by Qcdiv Qcmult) b old p t = add_tree_evidence b old p t /\
  fine (fst (add_tree_evidence b old p t)).
Proof.
  intros F. unfold add_posterior_by, add_tree_evidence. cbv zeta.
  destruct (get_node b (fst p)) as [n|e] eqn:EN; cbn [rbind]; [|split; [reflexivity|exact F]].
  unfold get_node in EN. destruct (find _ (bnodes b)) as [n'|] eqn:EF; [|discriminate]. inversion EN; subst n'.
  apply find_some in EF as [Hn En]. apply String.eqb_eq in En. assert (En' : fst p = dn_name n) by congruence. rewrite as_evidence_same, En'.
  destruct (as_evidence (dn_name n) (dn_values n) (snd p) (dget (dn_name n) old)) as [ef|e] eqn:EA; cbn [rbind]; [|split; [reflexivity|exact F]].
  destruct (evidence_shape n (snd p) _ ef Hn EA) as [W O].
  rewrite (evidence_eq x B b (dn_name n) ef (tnodes t) W O (fun k c => fine_in B b t k c F)), assign_evidence_same.
  split; [reflexivity|]. destruct (assign_evidence (dn_name n) ef (tnodes t)) as [l|e] eqn:E; [|exact F]. cbn [fst]. rewrite assign_evidence_at in E.
  apply (fine_assign B b _ _ t F W) with (2 := E). intros C HC v Hv. rewrite O in Hv. destruct Hv as [<-|[]]. apply mem_In, HC.
Qed.

Lemma hard_add p t : add_tree_evidence_by (capped_mul x B) b p t = add_posterior_by (capped_mul x B) (soft_ratio_by Qcdiv Qcmult) b [] p t.
Proof.
  unfold add_posterior_by, add_tree_evidence_by. cbv zeta. cbn [dget]. destruct (get_node b (fst p)); cbn [rbind]; [|reflexivity].
  rewrite as_evidence_same. reflexivity.
Qed.

Lemma olds_eq vs : forall t, fine t ->
  old_marginals_by (capped_mul x B) (capped_marg x B) (capped_invert x B) normalize vs t = old_marginals vs t /\ fine (fst (old_marginals vs t)).
Proof.
  induction vs as [|v vs IH]; intros t F; cbn [old_marginals_by old_marginals]; [split; [reflexivity|exact F]|].
  destruct (query_eq t [v] F) as [E F1]. unfold capped_tree in E. rewrite E. destruct (tmarginals t [v]) as [t1 [f|e]]; cbn [fst] in F1; [|split; [reflexivity|exact F1]].
  destruct (IH t1 F1) as [E2 F2]. rewrite E2. destruct (old_marginals vs t1) as [t2 [d|e]]; cbn [fst] in F2; (split; [reflexivity|exact F2]).
Qed.

Lemma set_evidence_eq ev soft t : framed b B t -> capped_evidence x B b ev soft t = set_evidence b ev soft t /\ fine (fst (set_evidence b ev soft t)).
Proof.
  intros F. destruct (reset_eq t F) as [E1 F1]. unfold capped_reset in E1. unfold capped_evidence, set_evidence. destruct soft.
  - unfold set_posteriors_by. rewrite E1. destruct (reset_factors b t) as [t1 [u1|e]]; cbn [fst] in F1; [|split; [reflexivity|exact F1]].
    destruct (messages_eq t1 F1) as [E2 F2]. unfold capped_messages in E2. rewrite E2. destruct (calculate_messages t1) as [t2 [u2|e]]; cbn [fst] in F2; [|split; [reflexivity|exact F2]].
    destruct (olds_eq (dkeys ev) t2 F2) as [E3 F3]. rewrite E3. destruct (old_marginals (dkeys ev) t2) as [t3 [d|e]]; cbn [fst] in F3; [|split; [reflexivity|exact F3]].
    destruct (reset_eq t3 (fine_framed B b t3 F3)) as [E4 F4]. unfold capped_reset in E4. rewrite E4. destruct (reset_factors b t3) as [t4 [u4|e]]; cbn [fst] in F4; [|split; [reflexivity|exact F4]].
    destruct (each_eq B b (add_posterior_by (capped_mul x B) (soft_ratio_by Qcdiv Qcmult) b d) (add_tree_evidence b d) ev (fun p t0 _ => add_eq d p t0) t4 F4) as [E5 F5].
    rewrite E5. destruct (each (add_tree_evidence b d) ev t4) as [t5 [u5|e]]; cbn [fst] in F5; [|split; [reflexivity|exact F5]].
    exact (messages_eq t5 F5).
  - unfold set_evidence_by. rewrite E1. destruct (reset_factors b t) as [t1 [u1|e]]; cbn [fst] in F1; [|split; [reflexivity|exact F1]].
    destruct (each_eq B b (add_tree_evidence_by (capped_mul x B) b) (add_tree_evidence b []) ev) with (t := t1) as [E5 F5].
    { intros p t0 _ F0. rewrite hard_add. exact (add_eq [] p t0 F0). } { exact F1. }
    rewrite E5. destruct (each (add_tree_evidence b []) ev t1) as [t5 [u5|e]]; cbn [fst] in F5; [|split; [reflexivity|exact F5]].
    exact (messages_eq t5 F5).
Qed.
End Calls.

(** ** The clusters *)
Lemma same_related b b' u v : same_arcs b b' -> related b u v -> related b' u v.
Proof.
  intros E (n & Hn & Hu & Hv). unfold same_arcs in E.
  assert (H : In (dn_name n, map fst (dn_parents n)) (map (fun n => (dn_name n, map fst (dn_parents n))) (bnodes b'))).
  { rewrite <- E. apply (in_map (fun n => (dn_name n, map fst (dn_parents n)))), Hn. }
  apply in_map_iff in H as (m & Em & Hm). exists m. split; [exact Hm|]. unfold family in *. injection Em as E1 E2. rewrite E1, E2. auto.
Qed.

Lemma same_round b b' o K : same_arcs b b' -> round b o K -> round b' o K.
Proof.
  intros E (pre & v & post & Eo & H). exists pre, v, post. split; [exact Eo|]. intros u Hu. destruct (H u Hu) as [|[N R]]; [left; assumption|right].
  split; [exact N|exact (same_related b b' v u E R)].
Qed.

Lemma round_incl b o K K' : round b o K -> incl K' K -> round b o K'.
Proof. intros (pre & v & post & E & H) I. exists pre, v, post. split; [exact E|]. intros u Hu. apply H, I, Hu. Qed.

Lemma clusters_round b o : wf_bn b -> wf_graph b -> edges_match b -> forall cs, cluster_seq o (moral_graph b) = Ok cs ->
  forall c, In c cs -> round b o c.
Proof.
  intros WB WG EM. destruct (moral_graph_spec b WB WG EM) as (UG & _ & NB).
  assert (H : forall q done g cs, ug g -> (forall v u, In u (neighbours g v) -> In u (neighbours (moral_graph b) v) /\ ~ In u done) ->
    cluster_seq q g = Ok cs -> forall c, In c cs -> exists pre v post, q = pre ++ v :: post /\ forall u, In u c -> u = v \/ ~ In u (done ++ pre) /\ interacts b v u).
  { intros q. induction q as [|v o' IH]; intros done g cs G S E c Hc; cbn [cluster_seq] in E; [injection E as <-; destruct Hc|].
    destruct (dmem v g); [|discriminate]. destruct (cluster_seq o' (remove_unode v g)) as [cs'|] eqn:E'; [|discriminate]. cbn [rbind] in E. injection E as <-.
    destruct Hc as [<-|Hc].
    - exists [], v, o'. split; [reflexivity|]. intros u [->|Hu]; [left; reflexivity|right]. rewrite app_nil_r. destruct (S v u Hu) as [S1 S2]. split; [exact S2|apply NB, S1].
    - destruct (remove_unode_spec v g G) as (G' & K' & S').
      destruct (IH (done ++ [v]) (remove_unode v g) cs' G') with (c := c) as (pre & w & post & Eo & Hw); [|exact E'|exact Hc|].
      + intros w u Hu. apply S' in Hu as (Hu & N1 & N2). destruct (S w u Hu) as [A1 A2]. split; [exact A1|].
        intros Q. apply in_app_iff in Q as [Q|[Q|[]]]; [exact (A2 Q)|congruence].
      + exists (v :: pre), w, post. split; [rewrite Eo; reflexivity|]. intros u Hu. destruct (Hw u Hu) as [|[N R]]; [left; assumption|right].
        split; [|exact R]. rewrite <- app_assoc in N. exact N. }
  intros cs E c Hc. destruct (H o [] (moral_graph b) cs UG) with (c := c) as (pre & v & post & Eo & Hv); [|exact E|exact Hc|].
  { intros v u Hu. split; [exact Hu|intros []]. }
  exists pre, v, post. split; [exact Eo|]. intros u Hu. destruct (Hv u Hu) as [|[N (_ & R)]]; [left; assumption|right]. split; [exact N|exact R].
Qed.

(** The cliques and separators: fixed by the network and the order. *)
Record placed (b0 : bn) (o : list string) (t : jtree) : Prop := {
  pl_keys : NoDup (dkeys (tnodes t));
  pl_len : length (tnodes t) <= length o;
  pl_node : forall k c, dget k (tnodes t) = Some c -> NoDup (cvars c) /\ round b0 o (cvars c);
  pl_fit : forall u v s c, eget u v (tedges t) = Some s -> dget v (tnodes t) = Some c -> incl (svars s) (cvars c)
}.

Lemma skel_dget t t' k c : skel t = skel t' -> dget k (tnodes t) = Some c -> exists c', dget k (tnodes t') = Some c' /\ cvars c' = cvars c.
Proof.
  intros S E. assert (X := f_equal (fun t => dget k (tnodes t)) S). cbv beta in X. unfold skel in X. cbn [set_valid tnodes] in X.
  change (dget k (tnodes (clear_factors t)) = dget k (tnodes (clear_factors t'))) in X. rewrite !dget_clear, E in X.
  destruct (dget k (tnodes t')) as [c'|]; [|discriminate]. cbn in X. injection X as X. eauto.
Qed.

Lemma skel_eget t t' u v s : skel t = skel t' -> eget u v (tedges t) = Some s -> exists s', eget u v (tedges t') = Some s' /\ svars s' = svars s.
Proof.
  intros S E. assert (X := f_equal (fun t => eget u v (tedges t)) S). cbv beta in X. unfold skel in X.
  change (eget u v (tedges (clear_factors t)) = eget u v (tedges (clear_factors t'))) in X. rewrite !eget_clear, E in X.
  destruct (eget u v (tedges t')) as [s'|]; [|discriminate]. cbn in X. injection X as X. eauto.
Qed.

Lemma placed_skel b0 o t t' : skel t' = skel t -> placed b0 o t -> placed b0 o t'.
Proof.
  intros S [A L C D]. assert (K := skel_keys _ _ S). split.
  - rewrite K. exact A.
  - apply (f_equal (@length string)) in K. unfold dkeys in K. rewrite !map_length in K. rewrite K. exact L.
  - intros k c E. destruct (skel_dget _ _ _ _ S E) as (c' & E' & <-). apply (C k c' E').
  - intros u v s c Es Ec. destruct (skel_dget _ _ _ _ S Ec) as (c' & E' & <-). destruct (skel_eget _ _ _ _ _ S Es) as (s' & Es' & <-).
    exact (D u v s' c' Es' E').
Qed.

Lemma placed_framed b0 o b B t : same_arcs b0 b -> placed b0 o t -> roomy b o B -> framed b B t.
Proof.
  intros SA P R. split; [apply P| |apply P]. intros k c E K ND I. apply R; [exact ND|].
  apply (round_incl b o (cvars c)); [|exact I]. apply (same_round b0 b o _ SA), (pl_node _ _ _ P k c E).
Qed.

Section Create.
Context {SO : SetOrder}.
Variable b0 : bn.
Hypothesis WB0 : wf_bn b0.
Hypothesis WG0 : wf_graph b0.
Hypothesis EM0 : edges_match b0.
Hypothesis DC0 : decodable (bnames b0).

Lemma built order o : order_or_default b0 order = Ok o -> forall cs L, cluster_seq o (moral_graph b0) = Ok cs -> prune cs = Ok L ->
  placed b0 o (build_tree L) /\ (forall k c, dget k (tnodes (build_tree L)) = Some c -> cfac c = trivial 1%Qc) /\
  (forall u v s, eget u v (tedges (build_tree L)) = Some s -> sfac s = trivial 1%Qc).
Proof.
  intros Eo cs L Ec El.
  destruct (moral_ug b0 WB0 WG0) as (UG & KG).
  destruct (cluster_seq_facts (bnames b0) o _ cs UG) as (No & Io & Hh & Hc).
  { intros v Hv. rewrite KG in Hv. apply (Permutation_in v (Permutation_sym (wg_nodes _ WG0))), Hv. } { exact Ec. }
  assert (NDc : NoDup cs) by (apply (NoDup_map_inv head); rewrite Hh; exact No).
  destruct (prune_some cs NDc) as (L' & El' & NL & IL & _). rewrite El in El'. inversion El'; subst L'.
  assert (HL : forall c, In c L -> NoDup c /\ c <> [] /\ incl c (bnames b0)) by (intros c H; apply Hc, IL, H).
  destruct (key_inj (bnames b0) L DC0 NL HL) as [NK NE].
  assert (LL : length L <= length o).
  { rewrite <- Hh, map_length. apply NoDup_incl_length; assumption. }
  destruct L as [|c L].
  - split; [|split; discriminate]. split; [constructor|cbn; lia|discriminate|discriminate].
  - destruct (build_forest (c :: L)) as (r & F); [discriminate|exact NK|]. split; [|split].
    + split; [apply F| | |].
      * assert (X : length (dkeys (tnodes (build_tree (c :: L)))) <= length (map key_of (c :: L))).
        { apply NoDup_incl_length; [apply F|]. intros k Hk. apply (fo_keys _ _ _ F), Hk. }
        unfold dkeys in X. rewrite !map_length in X. lia.
      * intros k d Ed. destruct (fo_cl _ _ _ F k d Ed) as (A & _ & _). split; [apply HL, A|]. apply (clusters_round b0 o WB0 WG0 EM0 cs Ec), IL, A.
      * intros u v s d Es. destruct (fo_se _ _ _ F u v s Es) as (_ & _ & _ & _ & I). apply I.
    + intros k d Ed. apply (fo_cl _ _ _ F k d Ed).
    + intros u v s Es. apply (fo_se _ _ _ F u v s Es).
Qed.

Lemma built_fine order o B cs L : order_or_default b0 order = Ok o -> cluster_seq o (moral_graph b0) = Ok cs -> prune cs = Ok L ->
  roomy b0 o B -> fine B b0 (build_tree L).
Proof.
  intros Eo Ec El R. destruct (built order o Eo cs L Ec El) as (P & T1 & T2). destruct (placed_framed b0 o b0 B _ eq_refl P R) as [A C D].
  split; [exact A| | |exact D].
  - intros k c E. split; [exact (C k c E)|]. rewrite (T1 k c E). apply sc_trivial.
  - intros u v s E. rewrite (T2 u v s E). apply sc_trivial.
Qed.

Lemma create_eq x B order : (forall o, order_or_default b0 order = Ok o -> roomy b0 o B) -> capped_jointree x B b0 order = create_jointree b0 order.
Proof.
  intros R. rewrite <- (proj1 tree_by_exact). unfold capped_jointree, create_jointree_by. destruct (order_or_default b0 order) as [o|e] eqn:Eo; cbn [rbind]; [|reflexivity].
  destruct (cluster_seq o (moral_graph b0)) as [cs|e] eqn:Ec; cbn [rbind]; [|reflexivity]. destruct (prune cs) as [L|e] eqn:El; cbn [rbind]; [|reflexivity].
  apply (factors_eq x B b0 WB0 (bnodes b0) (incl_refl _)). exact (built_fine order o B cs L Eo Ec El (R o eq_refl)).
Qed.

Lemma serves_inv o b t : serves b0 o b t -> wf_bn b /\ same_arcs b0 b /\ placed b0 o t /\ forall B, roomy b o B -> fine B b t.
Proof.
  induction 1 as [order t Eo E|b b' ev soft t S (WB & SA & P & F) SA' WB'|b b' t S (WB & SA & P & F) SA' WB'|b t S (WB & SA & P & F)|b Q t S (WB & SA & P & F)].
  - split; [exact WB0|]. split; [reflexivity|]. unfold create_jointree in E. rewrite Eo in E. cbn [rbind] in E. apply rbind_ok in E as (cs & Ec & E).
    apply rbind_ok in E as (L & El & E). split.
    + apply (placed_skel b0 o (build_tree L)); [exact (skel_assign_factors _ _ _ E)|]. apply (built order o Eo cs L Ec El).
    + intros B R. apply (factors_eq ValueError B b0 WB0 (bnodes b0) (incl_refl _) (build_tree L)).
      * exact (built_fine order o B cs L Eo Ec El R).
      * rewrite assign_factors_same. exact E.
  - split; [exact WB'|]. split; [exact SA'|]. split; [apply (placed_skel b0 o t); [apply skel_set_evidence|exact P]|].
    intros B R. apply (set_evidence_eq ValueError B b' WB' ev soft t). exact (placed_framed b0 o b' B t SA' P R).
  - split; [exact WB'|]. split; [exact SA'|]. split; [apply (placed_skel b0 o t); [apply skel_reset|exact P]|].
    intros B R. apply (reset_eq ValueError B b' WB' t). exact (placed_framed b0 o b' B t SA' P R).
  - split; [exact WB|]. split; [exact SA|]. split; [apply (placed_skel b0 o t); [apply skel_calc|exact P]|].
    intros B R. apply (messages_eq ValueError B b t), F, R.
  - split; [exact WB|]. split; [exact SA|]. split; [apply (placed_skel b0 o t); [apply skel_marginals|exact P]|].
    intros B R. apply (query_eq ValueError B b t), F, R.
Qed.

Theorem reset_top o b t b' x B : serves b0 o b t -> same_arcs b0 b' -> wf_bn b' -> roomy b' o B -> capped_reset x B b' t = reset_factors b' t.
Proof. intros S SA WB R. destruct (serves_inv o b t S) as (_ & _ & P & _). apply reset_eq; [exact WB|]. exact (placed_framed b0 o b' B t SA P R). Qed.

Theorem evidence_top o b t b' ev soft x B : serves b0 o b t -> same_arcs b0 b' -> wf_bn b' -> roomy b' o B -> capped_evidence x B b' ev soft t = set_evidence b' ev soft t.
Proof. intros S SA WB R. destruct (serves_inv o b t S) as (_ & _ & P & _). apply set_evidence_eq; [exact WB|]. exact (placed_framed b0 o b' B t SA P R). Qed.

Theorem messages_top o b t x B : serves b0 o b t -> roomy b o B -> capped_messages x B t = calculate_messages t.
Proof. intros S R. destruct (serves_inv o b t S) as (_ & _ & _ & F). apply (messages_eq x B b), F, R. Qed.

Theorem query_top o b t Q x B : serves b0 o b t -> roomy b o B -> capped_tree x B t Q = tmarginals t Q.
Proof. intros S R. destruct (serves_inv o b t S) as (_ & _ & _ & F). apply (query_eq x B b), F, R. Qed.

(** The clusters are sets of variables of the network: some bound always exists. *)
Lemma roomy_all b o : wf_bn b -> incl o (bnames b) -> roomy b o (entries b (bnames b)).
Proof.
  intros WB I K ND (pre & v & post & E & H). apply entries_incl; [intros u Hu; exact (dom_some b WB u Hu)|exact ND|].
  intros u Hu. destruct (H u Hu) as [->|[_ (n & Hn & _ & Hf)]]; [apply I; rewrite E; apply in_elt|].
  destruct Hf as [<-|Hf]; [apply in_map, Hn|exact (parent_in b WB n u Hn Hf)].
Qed.

Lemma serves_order o b t : serves b0 o b t -> incl o (bnames b0).
Proof.
  induction 1 as [order t Eo E| | | |]; try assumption. unfold create_jointree in E. rewrite Eo in E. cbn [rbind] in E. apply rbind_ok in E as (cs & Ec & E).
  destruct (moral_ug b0 WB0 WG0) as (UG & KG).
  destruct (cluster_seq_facts (dkeys (moral_graph b0)) o _ cs UG (incl_refl _) Ec) as (_ & Io & _). intros v Hv. apply Io in Hv. rewrite KG in Hv.
  apply (Permutation_in v (Permutation_sym (wg_nodes _ WG0))), Hv.
Qed.

Theorem stored_top o b t : serves b0 o b t ->
  length (tnodes t) <= length o /\
  (forall k c, dget k (tnodes t) = Some c -> NoDup (cvars c) /\ round b o (cvars c) /\ incl (vorder (cfac c)) (cvars c) /\
     length (data (pot (cfac c))) <= entries b (cvars c)) /\
  (forall u v s c, eget u v (tedges t) = Some s -> dget v (tnodes t) = Some c -> incl (svars s) (cvars c) /\ incl (vorder (sfac s)) (svars s) /\
     length (data (pot (sfac s))) <= entries b (cvars c)).
Proof.
  intros S. destruct (serves_inv o b t S) as (WB & SA & P & F).
  assert (I : incl o (bnames b)) by (rewrite <- (same_arcs_names _ _ SA); exact (serves_order o b t S)).
  specialize (F _ (roomy_all b o WB I)).
  assert (POS : forall k c, dget k (tnodes t) = Some c -> forall v, In v (cvars c) -> values_of b v <> []).
  { intros k c E v Hv. apply (dom_some b WB). destruct (pl_node _ _ _ P k c E) as [_ R]. apply (same_round b0 b o _ SA) in R.
    destruct R as (pre & w & post & Eo & H). destruct (H v Hv) as [->|[_ (n & Hn & _ & Hf)]]; [apply I; rewrite Eo; apply in_elt|].
    destruct Hf as [<-|Hf]; [apply in_map, Hn|exact (parent_in b WB n v Hn Hf)]. }
  split; [apply P|]. split.
  - intros k c E. destruct (pl_node _ _ _ P k c E) as [ND R]. destruct (fi_node _ _ _ F k c E) as [_ [W J]].
    split; [exact ND|]. split; [exact (same_round b0 b o _ SA R)|]. split; [exact J|]. rewrite (size_entries b) by exact W.
    apply entries_incl; [exact (POS k c E)|apply W|exact J].
  - intros u v s c Es E. assert (J := pl_fit _ _ _ P u v s c Es E). destruct (fi_edge _ _ _ F u v s Es) as [W J2].
    split; [exact J|]. split; [exact J2|]. rewrite (size_entries b) by exact W.
    apply entries_incl; [exact (POS v c E)|apply W|]. intros w Hw. apply J, J2, Hw.
Qed.
End Create.
