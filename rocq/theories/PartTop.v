(** Answers about the component in which the messages start. *)
From Coq Require Import Relations.
From Verif Require Import Base BaseFacts NDArray NDArrayFacts SumCalc Factor FactorFacts Exact Spec SpecFacts VEProof VEProof2
  Order OrderSpec OrderProof JoinTree HuginPure Hugin JTProof JTProof2 JTBuild JTBuild2 JTBuild3 TreeSpec JTTop JTHistory JTJunction SepSpec SepRelevant SepTop
  PartSpec PartGraph PartTree PartOps DecNorm PartBuild TablesTop PartCreate PartMass JTDefault JTPolytree.

Lemma r_edges b S : edges_match b -> apart b S -> edges_match (restrict b S).
Proof.
  intros EM AP u v. cbn [restrict bedges bnodes]. rewrite filter_In, (EM u v), andb_true_iff, !mem_In. cbn [fst snd]. split.
  - intros [(n & Hn & <- & Hu) [Su Sn]]. exists n. split; [apply filter_In; split; [exact Hn|apply mem_In, Sn]|auto].
  - intros (n & Hn & <- & Hu). apply filter_In in Hn as [Hn Sn]. apply mem_In in Sn. split; [exists n; auto|]. split; [|exact Sn].
    apply (AP n u Hn Hu), Sn.
Qed.

Lemma r_interacts b S u v : apart b S -> interacts (restrict b S) u v <-> interacts b u v /\ In u S.
Proof.
  intros AP. assert (FS : forall n w, In n (bnodes b) -> In w (dn_name n :: map fst (dn_parents n)) -> (In w S <-> In (dn_name n) S)).
  { intros n w Hn [<-|Hw]; [tauto|]. symmetry. apply (AP n w Hn Hw). }
  split.
  - intros (N & n & Hn & Hu & Hv). apply r_node in Hn as [Hn Sn]. split; [split; [exact N|exists n; auto]|]. apply (FS n u Hn Hu), Sn.
  - intros [(N & n & Hn & Hu & Hv) Su]. split; [exact N|]. exists n. split; [|auto]. apply r_node. split; [exact Hn|apply (FS n u Hn Hu), Su].
Qed.

Lemma suits_part b o S : wf_bn b -> wf_graph b -> edges_match b -> decodable (bnames b) -> Permutation (bnames b) o -> perfect_order b o ->
  apart b S -> together b S -> (exists v, In v (bnames b) /\ In v S) -> suits (restrict b S) (filter (fun v => mem v S) o).
Proof.
  intros WB WG EM DC PO PF AP TG (v0 & Hv0 & Sv0). apply perfect_suits.
  - apply r_wf; [exact WB|apply apart_ancestral, AP].
  - apply r_graph, WG.
  - apply r_edges; assumption.
  - intros E. assert (X : In v0 (bnames (restrict b S))) by (apply r_name; auto). unfold bnames in X. rewrite E in X. destruct X.
  - rewrite r_names. apply perm_filter, PO.
  - intros pre v post E x y Hx Hy Ix Iy N. destruct (filter_at _ _ _ _ _ E) as (l1 & l2 & Eo & _ & E2). rewrite <- E2 in Hx, Hy.
    apply filter_In in Hx as [Hx Mx], Hy as [Hy My]. rewrite r_interacts in Ix, Iy |- * by exact AP. split; [|apply mem_In, Mx].
    apply (PF l1 v l2 Eo); tauto.
  - intros u v Hu Hv. apply r_name in Hu as [Hu Su], Hv as [Hv Sv]. assert (H := TG u v Hu Hv Su Sv). apply clos_rt_rt1n in H. clear Hv Sv Hu.
    induction H as [x|x y z A H IH]; [apply rt_refl|]. apply rt_trans with y.
    + apply rt_step. apply r_interacts; auto.
    + apply IH. assert (A' : interacts (restrict b S) x y) by (apply r_interacts; auto).
      apply (interacts_names _ (r_wf b WB S (apart_ancestral b S AP))) in A' as [_ A']. apply r_name in A'. tauto.
  - intros l m Il Im. apply DC; intros v Hv; [apply Il, r_name in Hv|apply Im, r_name in Hv]; tauto.
Qed.

Lemma same_arcs_apart b b' S : same_arcs b b' -> apart b S -> apart b' S.
Proof.
  intros E H n p Hn Hp. unfold same_arcs in E.
  assert (X : In (dn_name n, map fst (dn_parents n)) (map (fun n => (dn_name n, map fst (dn_parents n))) (bnodes b'))) by (apply in_map_iff; exists n; auto).
  rewrite <- E in X. apply in_map_iff in X as (m & Em & Hm). injection Em as E1 E2. rewrite <- E1. apply (H m p Hm). rewrite E2. exact Hp.
Qed.

Lemma same_arcs_restrict b b' S : same_arcs b b' -> same_arcs (restrict b S) (restrict b' S).
Proof.
  unfold same_arcs. cbn [restrict bnodes]. intros E. set (f := fun n => (dn_name n, map fst (dn_parents n))) in *.
  assert (X : forall l : list dnode, map f (filter (fun n => mem (dn_name n) S) l) = filter (fun p => mem (fst p) S) (map f l)).
  { intros l. symmetry. apply (filter_map_comm f (fun p => mem (fst p) S)). }
  rewrite !X. now f_equal.
Qed.

Lemma same_arcs_names b b' : same_arcs b b' -> bnames b = bnames b'.
Proof. intros E. unfold same_arcs in E. apply (f_equal (map fst)) in E. rewrite !map_map in E. exact E. Qed.

Lemma used_skel {SO : SetOrder} t0 t : used t0 t -> skel t = skel t0.
Proof.
  induction 1 as [|b ev soft t U IH|b t U IH|t U IH|Q t U IH]; [reflexivity|..]; rewrite <- IH.
  - apply skel_set_evidence. - apply skel_reset. - apply skel_calc. - apply skel_marginals.
Qed.

Lemma skel_tpart K t : skel (tpart K t) = tpart K (skel t).
Proof. unfold skel. rewrite <- clear_part. reflexivity. Qed.

Lemma part_skel S t t' : skel t = skel t' -> skel (part S t) = skel (part S t').
Proof.
  intros E. rewrite !part_eq, !skel_tpart, E. apply tpart_ext. intros k. apply inside_skel, E.
Qed.

Section Top.
Context {SO : SetOrder}.
Variable b0 : bn.
Hypothesis WB0 : wf_bn b0.
Hypothesis WG : wf_graph b0.
Hypothesis EM : edges_match b0.
Hypothesis DC : decodable (bnames b0).
Variable o : list string.
Hypothesis PO : Permutation (bnames b0) o.
Variable order : option (list string).
Hypothesis EO : order_or_default b0 order = Ok o.
Variable S : list string.
Hypothesis AP : apart b0 S.
Variables t0 t : jtree.
Hypothesis EC : create_jointree b0 order = Ok t0.
Hypothesis US : used t0 t.

Lemma tree_shaped : shaped S t.
Proof.
  destruct (create_part b0 WB0 WG EM DC o PO order EO S AP) as (t1 & E1 & SH & _). rewrite EC in E1. injection E1 as <-.
  apply (shaped_skel S t0); [symmetry; apply used_skel, US|exact SH].
Qed.

Lemma tree_first : In (last o "") S -> o <> [] -> rooted_at (inside S t) t.
Proof.
  intros HL NO. destruct (create_part b0 WB0 WG EM DC o PO order EO S AP) as (t1 & E1 & _ & _ & R). rewrite EC in E1. injection E1 as <-.
  destruct (R HL NO) as (k & rest & Ek & Ik). assert (SK := used_skel t0 t US). exists k, rest. split; [rewrite (skel_keys _ _ SK); exact Ek|].
  rewrite (inside_skel S t t0 k SK). exact Ik.
Qed.

Lemma elsewhere_kept : ~ In (last o "") S -> o <> [] ->
  tnodes (part S (fst (calculate_messages t))) = tnodes (part S t) /\ tedges (part S (fst (calculate_messages t))) = tedges (part S t).
Proof.
  intros HL NO. destruct tree_shaped as [SD CL].
  assert (HF : exists k rest, dkeys (tnodes t) = k :: rest /\ inside S t k = false).
  { assert (LO : In (last o "") (bnames b0)).
    { apply (Permutation_in _ (Permutation_sym PO)). destruct (exists_last NO) as (l & x & ->). rewrite last_last. apply in_elt. }
    assert (AP' := apart_rest b0 S WB0 AP).
    destruct (create_part b0 WB0 WG EM DC o PO order EO (others b0 S) AP') as (t1 & E1 & SH & _ & R). rewrite EC in E1. injection E1 as <-.
    destruct R as (k & rest & Ek & Ik); [apply others_In; auto|exact NO|]. assert (SK := used_skel t0 t US).
    exists k, rest. split; [rewrite (skel_keys _ _ SK); exact Ek|]. rewrite <- (inside_skel _ t t0 k SK) in Ik.
    destruct (tnodes t) as [|[k1 c] l] eqn:Et; [rewrite <- (skel_keys _ _ SK), Et in Ek; discriminate|].
    rewrite <- (skel_keys _ _ SK), Et in Ek. cbn in Ek. injection Ek as -> _.
    destruct (SD k c) as [[NE HU] HI]; [now left|]. rewrite HI. unfold inside in Ik. rewrite Et in Ik. cbn in Ik. rewrite eqb_refl_s in Ik. apply subset_spec in Ik.
    destruct (cvars c) as [|v l']; [congruence|]. cbn [here]. apply mem_nIn. assert (X := Ik v (or_introl eq_refl)). apply others_In in X. tauto. }
  destruct HF as (k & rest & Ek & Ik). rewrite !part_eq. assert (SK := skel_calc t).
  rewrite (tpart_ext (inside S (fst (calculate_messages t))) (inside S t)) by (intros k'; apply inside_skel, SK).
  rewrite (calc_frame _ t k rest Ek Ik CL). split; reflexivity.
Qed.

Hypothesis JN : joined (tree_keys (part S t0)) (tree_adj (part S t0)).
Hypothesis NN0 : nonneg_bn b0.
Hypothesis HL : In (last o "") S.
Hypothesis NO : o <> [].
Variables (b : bn) (ev : evidence) (Q : list string).
Hypothesis SA : same_arcs b0 b.
Hypothesis WB : wf_bn b.
Hypothesis NN : nonneg_bn b.
Hypothesis EV : ev_ok b ev.
Hypothesis KN : incl (dkeys ev) (bnames b).

Lemma some_name : exists v, In v (bnames b0) /\ In v S.
Proof.
  exists (last o ""). split; [|exact HL]. apply (Permutation_in _ (Permutation_sym PO)). destruct (exists_last NO) as (l & x & ->). rewrite last_last. apply in_elt.
Qed.

Lemma part_tree : exists r sv, jt_ok (restrict b S) (part S t) r sv.
Proof.
  destruct (create_part b0 WB0 WG EM DC o PO order EO S AP) as (t1 & E1 & _ & CP & _). rewrite EC in E1. injection E1 as <-.
  assert (NE : filter (fun v => mem v S) o <> []).
  { intros E. assert (X : In (last o "") (filter (fun v => mem v S) o)).
    { apply filter_In. split; [|apply mem_In, HL]. destruct (exists_last NO) as (l & x & ->). rewrite last_last. apply in_elt. }
    rewrite E in X. destruct X. }
  assert (OO : order_or_default (restrict b0 S) (Some (filter (fun v => mem v S) o)) = Ok (filter (fun v => mem v S) o)) by (destruct (filter (fun v => mem v S) o); [congruence|reflexivity]).
  assert (SU : suits (restrict b0 S) (filter (fun v => mem v S) o)).
  { destruct some_name as (v0 & Hv0 & Sv0).
    apply (joined_suits (restrict b0 S) _ (Some (filter (fun v => mem v S) o)) (part S t0)); [| | | | | |exact OO|exact (CP NE)|exact JN].
    - apply r_wf; [exact WB0|apply apart_ancestral, AP].
    - apply r_graph, WG.
    - apply r_edges; assumption.
    - intros E. assert (X : In v0 (bnames (restrict b0 S))) by (apply r_name; auto). unfold bnames in X. rewrite E in X. destruct X.
    - rewrite r_names. apply perm_filter, PO.
    - intros l m Il Im. apply DC; intros v Hv; [apply Il, r_name in Hv|apply Im, r_name in Hv]; tauto. }
  destruct (create_ok (restrict b0 S) _ (Some (filter (fun v => mem v S) o)) SU (r_nonneg b0 S NN0)) as (t1 & r & sv & E1 & J & _).
  { exact OO. }
  rewrite (CP NE) in E1. injection E1 as <-. exists r, sv.
  apply (jt_ok_same (restrict b0 S) (restrict b S) (part S t0) (part S t)); [apply same_arcs_families, same_arcs_restrict, SA| |exact J].
  symmetry. apply part_skel, used_skel, US.
Qed.

Theorem component_answers : NoDup Q -> incl Q S -> answers t Q ->
  exists t' f, set_evidence b ev false t = (t', Ok tt) /\ snd (tmarginals t' Q) = Ok f /\
    reports b f Q (posterior (restrict b S) (ev_part S ev)) /\ (mass b ev [] <> 0%Qc -> reports b f Q (posterior b ev)) /\
    Forall (fun x => 0 <= x)%Qc (data (pot f)) /\
    (mass (restrict b S) (ev_part S ev) [] <> 0%Qc -> qsum (data (pot f)) = 1%Qc) /\
    (mass (restrict b S) (ev_part S ev) [] = 0%Qc -> Forall (fun x => x = 0%Qc) (data (pot f))).
Proof.
  intros ND IQ AQ. destruct part_tree as (r & sv & J). destruct tree_shaped as [SD CL]. assert (RT := tree_first HL NO).
  assert (APb := same_arcs_apart b0 b S SA AP). assert (AN := apart_ancestral b S APb). assert (WR := r_wf b WB S AN).
  assert (EV' := r_ev b WB S AN _ (ev_part_ok b S ev EV)). assert (KN' := ev_part_keys b S ev APb KN). assert (NR := r_nonneg b S NN).
  destruct (set_evidence_calibrates (restrict b S) WR (ev_part S ev) (part S t) r sv NR EV' KN' J) as (tp & E' & S' & V & C).
  rewrite part_eq in E'.
  destruct (set_evidence_part b WB S APb (inside S t) ev t EV KN RT SD CL) as (t' & E1 & E2 & SK); [rewrite E'; reflexivity|].
  rewrite E2 in E'. injection E' as E'. exists t'.
  assert (H : holds (restrict b S) tp r sv (iweight (restrict b S) (ev_part S ev))) by (split; [eapply jt_ok_same; [reflexivity|symmetry; exact S'|exact J]|left; auto]).
  assert (QS : incl Q (bnames b)).
  { intros v Hv. destruct AQ as (k & Hk & I). assert (Hr : In v (tree_vars t k)) by (apply I, Hv).
    (* the variables of a clique inside S are known to the tree of the component *)
    assert (SV : In v (tree_vars (part S t) k)).
    { unfold tree_vars in *. destruct (dget k (tnodes t)) as [c|] eqn:Ek; [|destruct Hr].
      assert (IK : inside S t k = true).
      { destruct (SD k c (dget_In _ _ _ Ek)) as [U HI]. rewrite HI, <- (uniform_here _ _ v U Hr). apply mem_In, IQ, Hv. }
      rewrite part_eq. cbn [tpart tnodes]. rewrite dpart_get by exact IK. rewrite Ek. exact Hr. }
    rewrite tree_vars_cvo in SV. assert (X := jo_U _ _ _ _ J k v SV). apply r_name in X. tauto. }
  assert (QR : incl Q (bnames (restrict b S))) by (intros v Hv; apply r_name; auto).
  assert (AP' : answers (part S t) Q).
  { destruct Q as [|q Q'] eqn:EQ.
    - destruct RT as (k & rest & Ek & Ik). exists k. split; [|intros v []]. unfold tree_keys. rewrite part_eq. cbn [tpart tnodes].
      rewrite dpart_keys, Ek. cbn [filter]. rewrite Ik. now left.
    - destruct AQ as (k & Hk & I). exists k. unfold tree_keys, tree_vars in *. destruct (dget k (tnodes t)) as [c|] eqn:Ek; [|destruct (I q (or_introl eq_refl))].
      assert (IK : inside S t k = true).
      { destruct (SD k c (dget_In _ _ _ Ek)) as [U HI]. rewrite HI, <- (uniform_here _ _ q U (I q (or_introl eq_refl))). apply mem_In, IQ. now left. }
      rewrite part_eq. cbn [tpart tnodes]. rewrite dpart_keys, dpart_get by exact IK. rewrite Ek. split; [apply filter_In; auto|exact I]. }
  destruct (marginals_holds (restrict b S) WR tp r sv (ev_part S ev) Q NR EV' H) as [_ X].
  destruct X as (f & Ef & Rf); [exact ND|apply (in_clique_skel (part S t) tp); [congruence|apply answers_in_clique, AP']|].
  exists f. split; [exact E1|]. 
  assert (KE : forall k, inside S t k = inside S t' k) by (intros k; apply inside_skel; symmetry; exact SK).
  assert (QP := query_part S (inside S t) t' Q).
  rewrite E' in QP.
  rewrite QP in Ef.
  2: { destruct RT as (k & rest & Ek & Ik). exists k, rest. split; [rewrite (skel_keys _ _ SK); exact Ek|exact Ik]. }
  2: { eapply sided_skel; [symmetry; exact SK|exact SD]. }
  2: { eapply tclosed_skel; [symmetry; exact SK|exact CL]. }
  2: { exact IQ. }
  2: { intros VF. rewrite <- E' in V. cbn in V. congruence. }
  cbn [snd] in Ef. split; [exact Ef|].
  assert (R1 := reports_restrict b S f Q _ WB AN QS IQ Rf). split; [exact R1|].
  split; [|exact (reports_distribution (restrict b S) WR f Q (ev_part S ev) NR EV' ND QR Rf)].
  intros M. apply (reports_same _ _ _ _ _ R1). intros q Hq. symmetry. apply (posterior_part b WB S APb ev q Q EV Hq ND QR M).
Qed.
End Top.

Lemma perfect_part {SO : SetOrder} b o order S t : wf_bn b -> wf_graph b -> edges_match b -> decodable (bnames b) -> nonneg_bn b ->
  Permutation (bnames b) o -> perfect_order b o -> order_or_default b order = Ok o -> create_jointree b order = Ok t ->
  apart b S -> together b S -> (exists v, In v (bnames b) /\ In v S) -> joined (tree_keys (part S t)) (tree_adj (part S t)).
Proof.
  intros WB WG EM DC NN PO PF EO EC AP TG SV.
  destruct (create_part b WB WG EM DC o PO order EO S AP) as (t1 & E1 & [SD CL] & CP & _). rewrite EC in E1. injection E1 as <-.
  assert (SU := suits_part b o S WB WG EM DC PO PF AP TG SV). destruct SV as (v0 & Hv0 & Sv0).
  destruct (filter (fun v => mem v S) o) as [|v1 l] eqn:EF.
  { apply (Permutation_in _ PO) in Hv0. assert (X : In v0 (filter (fun v => mem v S) o)) by (apply filter_In; split; [exact Hv0|apply mem_In, Sv0]). rewrite EF in X. destruct X. }
  destruct (create_junction (restrict b S) (v1 :: l) (Some (v1 :: l)) SU (r_nonneg b S NN) eq_refl) as (t2 & E2 & J).
  rewrite CP in E2 by discriminate. injection E2 as <-. exact (jt_joined _ _ _ _ J).
Qed.

Lemma sides_of S t : sided (inside S t) (fun v => mem v S) (tnodes t) -> forall k, In k (tree_keys t) ->
  tree_vars t k <> [] /\ (incl (tree_vars t k) S \/ forall v, In v (tree_vars t k) -> ~ In v S).
Proof.
  intros SD k Hk. unfold tree_vars. destruct (dget k (tnodes t)) as [c|] eqn:E.
  - destruct (SD k c (dget_In _ _ _ E)) as [[NE U] _]. split; [exact NE|]. destruct (cvars c) as [|v l]; [congruence|].
    destruct (mem v S) eqn:M; [left|right]; intros w Hw; [apply mem_In|apply mem_nIn]; rewrite <- (U v w (or_introl eq_refl) Hw); exact M.
  - exfalso. apply dget_None in E. apply E, Hk.
Qed.

Lemma polytree_component {SO : SetOrder} b :
  wf_bn b -> wf_graph b -> edges_match b -> nonneg_bn b -> polytree b -> prefix_free (bnames b) -> bnodes b <> [] ->
  exists o t, order_or_default b None = Ok o /\ create_jointree b None = Ok t /\ In (last o "") (bnames b) /\
    forall S ev Q, apart b S -> together b S -> In (last o "") S -> ev_ok b ev -> incl (dkeys ev) (bnames b) -> mass b ev [] <> 0%Qc ->
      NoDup Q -> incl Q S -> answers t Q ->
      exists t' f, set_evidence b ev false t = (t', Ok tt) /\ snd (tmarginals t' Q) = Ok f /\ reports b f Q (posterior b ev).
Proof.
  intros WB WG EM NN PT PF NE. destruct (min_degree_greedy b WG) as (o & E & P & G).
  assert (PO : perfect_order b o) by (apply poly_perfect; assumption). assert (DC := prefix_free_decodable _ PF).
  destruct (create_goes b WB WG EM DC o P None E) as (_ & _ & t & _ & _ & _ & _ & _ & _ & EC & _).
  assert (NO : o <> []).
  { intros ->. apply Permutation_sym, Permutation_nil in P. unfold bnames in P. destruct (bnodes b); [congruence|discriminate]. }
  exists o, t. split; [exact E|]. split; [exact EC|]. split.
  { apply (Permutation_in _ (Permutation_sym P)). destruct (exists_last NO) as (l & x & ->). rewrite last_last. apply in_elt. }
  intros S ev Q AP TG HL EV KN M ND IQ A.
  assert (LL : In (last o "") (bnames b)) by (apply (Permutation_in _ (Permutation_sym P)); destruct (exists_last NO) as (l & x & ->); rewrite last_last; apply in_elt).
  destruct (component_answers b WB WG EM DC o P None E S AP t t EC (U_new t) (perfect_part b o None S t WB WG EM DC NN P PO E EC AP TG (ex_intro _ (last o "") (conj LL HL))) NN HL NO b ev Q eq_refl WB NN EV KN ND IQ A)
    as (t' & f & E1 & E2 & _ & R & _). exists t', f. split; [exact E1|]. split; [exact E2|exact (R M)].
Qed.

(** ** Checks *)
Definition apartb (b : bn) (S : list string) : bool :=
  forallb (fun n => forallb (fun p => Bool.eqb (mem (dn_name n) S) (mem p S)) (map fst (dn_parents n))) (bnodes b).

Lemma apartb_ok b S : apartb b S = true -> apart b S.
Proof.
  unfold apartb. rewrite forallb_forall. intros H n p Hn Hp. specialize (H n Hn). rewrite forallb_forall in H. specialize (H p Hp).
  apply Bool.eqb_prop in H. rewrite <- !mem_In, H. tauto.
Qed.

Lemma together_of b S : apart b S -> one_component (restrict b S) -> together b S.
Proof.
  intros AP OC u v Hu Hv Su Sv. assert (H := OC u v). rewrite !r_name in H. specialize (H (conj Hu Su) (conj Hv Sv)).
  clear Hu Hv Su Sv. induction H as [x y A| |x y z H1 I1 H2 I2]; [apply rt_step; apply (r_interacts b S x y AP), A|apply rt_refl|eapply rt_trans; eassumption].
Qed.
