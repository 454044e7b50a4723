(** create_jointree on a network of several components. *)
From Coq Require Import Relations.
From Verif Require Import Base BaseFacts NDArray NDArrayFacts SumCalc Factor FactorFacts Exact Spec SpecFacts VEProof VEProof2
  Order OrderSpec OrderProof JoinTree HuginPure Hugin JTProof JTProof2 JTBuild JTBuild2 JTBuild3 TreeSpec JTTop JTHistory SepSpec SepRelevant SepTop
  PartSpec PartGraph PartTree PartOps DecNorm PartBuild TablesTop.

Lemma clus_last adj o cs : clus adj o cs -> o <> [] -> exists l, last cs [] = last o "" :: l.
Proof.
  induction 1 as [|v o l cs ND HL H IH]; intros N; [congruence|]. destruct o as [|w o].
  - inversion H; subst. cbn. eauto.
  - destruct IH as (m & E); [discriminate|]. inversion H; subst. exists m. cbn [last] in *. exact E.
Qed.

Lemma clus_each adj o cs : clus adj o cs -> forall c, In c cs -> NoDup c.
Proof. induction 1 as [|v o l cs ND HL H IH]; intros c Hc; [destruct Hc|]. destruct Hc as [<-|Hc]; [exact ND|apply IH, Hc]. Qed.

Lemma keys_nodup names L : decodable names -> NoDup L -> (forall c, In c L -> NoDup c /\ incl c names) -> NoDup (map key_of L).
Proof.
  intros DC ND H. induction L as [|c L IH]; [constructor|]. inversion ND as [|? ? N ND']; subst. cbn. constructor.
  - intros X. apply in_map_iff in X as (d & E & Hd). apply N. destruct (H c (or_introl eq_refl)) as [Nc Ic]. destruct (H d (or_intror Hd)) as [Nd Id].
    rewrite <- (DC d c Id Ic Nd Nc E). exact Hd.
  - apply IH; [exact ND'|]. intros d Hd. apply H. now right.
Qed.

Lemma inside_skel S t t' k : skel t = skel t' -> inside S t k = inside S t' k.
Proof.
  intros E. unfold inside. assert (X := skel_vars _ _ E). unfold vars_of in X.
  assert (G : forall (l l' : dict clique), map (fun p => (fst p, cvars (snd p))) l = map (fun p => (fst p, cvars (snd p))) l' ->
    option_map cvars (dget k l) = option_map cvars (dget k l')).
  { induction l as [|[a x] l IH]; intros [|[a' x'] l'] Y; try discriminate; [reflexivity|]. cbn in Y. injection Y as -> E1 Y. cbn.
    destruct (String.eqb k a'); cbn; [now f_equal|apply IH, Y]. }
  assert (Y := G _ _ X). destruct (dget k (tnodes t)), (dget k (tnodes t')); cbn in Y; try discriminate; [|reflexivity]. injection Y as ->. reflexivity.
Qed.

(** The shape of a tree that consists of the trees of the components. *)
Record shaped (S : list string) (t : jtree) : Prop := {
  sh_sided : sided (inside S t) (fun v => mem v S) (tnodes t);
  sh_closed : tclosed (inside S t) t
}.

Lemma sided_ext K K' P l : (forall k, K k = K' k) -> sided K P l -> sided K' P l.
Proof. intros E H k c Hc. destruct (H k c Hc). split; [assumption|]. now rewrite <- E. Qed.

Lemma tclosed_ext K K' t : (forall k, K k = K' k) -> tclosed K t -> tclosed K' t.
Proof. intros E H k w Hw. rewrite <- !E. apply (H k w Hw). Qed.

Lemma shaped_skel S t t' : skel t = skel t' -> shaped S t -> shaped S t'.
Proof.
  intros E [H1 H2]. assert (X := fun k => inside_skel S t t' k E). split.
  - apply (sided_ext (inside S t)); [exact X|]. eapply sided_skel; [exact E|exact H1].
  - apply (tclosed_ext (inside S t)); [exact X|]. eapply tclosed_skel; [exact E|exact H2].
Qed.

Section Create.
Context {SO : SetOrder}.
Variable b : bn.
Hypothesis WB : wf_bn b.
Hypothesis WG : wf_graph b.
Hypothesis EM : edges_match b.
Hypothesis DC : decodable (bnames b).
Variable o : list string.
Hypothesis PO : Permutation (bnames b) o.
Variable order : option (list string).
Hypothesis EO : order_or_default b order = Ok o.


(** What every network gives, whatever its components. *)
Lemma create_goes : exists cs L t, cluster_seq o (moral_graph b) = Ok cs /\ clus (interacts b) o cs /\ prune cs = Ok L /\ NoDup (map key_of L) /\
  incl L cs /\ assign_factors (map from_node (bnodes b)) (build_tree L) = Ok t /\ create_jointree b order = Ok t /\ skel t = build_tree L /\
  (forall h : list string -> bool, (forall c d, In c cs -> In d cs -> subset c d = true -> h c = h d) -> h (last L []) = h (last cs [])).
Proof.
  destruct (moral_graph_spec b WB WG EM) as (G & KY & NB).
  assert (ND : NoDup o) by (apply (Permutation_NoDup PO), WG).
  destruct (cluster_seq_ok (interacts b) o (moral_graph b) G ND) as (cs & E & C).
  - intros w. rewrite KY. split; intros H.
    + apply (Permutation_in _ PO), (Permutation_in _ (Permutation_sym (wg_nodes _ WG))), H.
    + apply (Permutation_in _ (wg_nodes _ WG)), (Permutation_in _ (Permutation_sym PO)), H.
  - intros u v. rewrite NB. split; [|tauto]. intros I. split; [exact I|].
    destruct (interacts_names b WB _ _ I). split; apply (Permutation_in _ PO); assumption.
  - assert (NC := clus_nodup _ _ _ C ND).
    destruct (prune_goes (fun _ => true) cs NC) as (L & EL & NL & _); [reflexivity|].
    assert (IL := prune_in _ _ EL).
    assert (NK : NoDup (map key_of L)).
    { apply (keys_nodup (bnames b)); [exact DC|exact NL|]. intros c Hc. split; [apply (clus_each _ _ _ C), IL, Hc|].
      intros v Hv. apply (Permutation_in _ (Permutation_sym PO)). apply (clus_in _ _ _ C c); [apply IL, Hc|exact Hv]. }
    destruct (factors_part b WB (bnames b)) with (K := fun k : string => true) (t := build_tree L) as (t & ET & _ & _).
    + intros k c Hc. destruct (build_nodes_in L k c Hc) as (d & Hd & -> & ->).
      assert (NE : d <> []).
      { assert (Hd' := IL d Hd). apply in_split in Hd' as (pre & post & E'). destruct (clus_split _ _ _ C pre d post E') as (? & ? & ? & ? & _ & -> & _). discriminate. }
      assert (MB : forall v, In v d -> mem v (bnames b) = true).
      { intros v Hv. apply mem_In, (Permutation_in _ (Permutation_sym PO)). apply (clus_in _ _ _ C d); [apply IL, Hd|exact Hv]. }
      split; [split; [exact NE|]|].
      * intros v w Hv Hw. now rewrite !MB.
      * destruct d as [|v d]; [congruence|]. cbn. symmetry. apply MB. now left.
    + rewrite <- clear_build. apply sound_clear.
    + exists cs, L, t. do 6 (split; [assumption|]). split.
      { unfold create_jointree. rewrite EO. cbn [rbind]. rewrite E. cbn [rbind]. rewrite EL. exact ET. }
      split.
      { assert (SK := skel_assign_factors _ _ _ ET). rewrite SK. unfold skel.
        replace (set_valid false (build_tree L)) with (build_tree L); [apply clear_build|].
        rewrite (jtree_eta (build_tree L)) at 1. rewrite tvalid_build. reflexivity. }
      intros h Hh. destruct (prune_goes h cs NC Hh) as (L' & EL' & _ & X). rewrite EL in EL'. injection EL' as <-. exact X.
Qed.

Variable S : list string.
Hypothesis AP : apart b S.
Notation P := (fun v => mem v S).

Theorem create_part : exists t, create_jointree b order = Ok t /\ shaped S t /\
  (filter P o <> [] -> create_jointree (restrict b S) (Some (filter P o)) = Ok (part S t)) /\
  (In (last o "") S -> o <> [] -> exists k rest, dkeys (tnodes t) = k :: rest /\ inside S t k = true).
Proof.
  destruct create_goes as (cs & L & t & E & C & EL & NK & IL & ET & CT & SK & LA). exists t. split; [exact CT|].
  destruct (cluster_part P o (moral_graph b) cs (apart_moral b WB EM S AP) E) as (U & E').
  assert (UL : Forall (uniform P) L) by (rewrite Forall_forall in *; intros c Hc; apply U, IL, Hc).
  assert (UL' := UL). assert (U' := U). rewrite Forall_forall in UL', U'.
  assert (SKB : skel t = skel (build_tree L)) by (rewrite <- SK; unfold skel at 2; unfold set_valid, clear_factors; cbn; rewrite !map_map; reflexivity).
  assert (IN : forall c, In c L -> inside S t (key_of c) = here P c).
  { intros c Hc. assert (SB : skel t = skel (build_tree L)) by exact SKB.
    rewrite (inside_skel S t (build_tree L) _ SB). unfold inside. rewrite (build_nodes_get L c NK Hc). cbn [cvars].
    destruct (UL' c Hc) as [NE HU]. destruct c as [|v c]; [congruence|]. cbn [here]. destruct (mem v S) eqn:M.
    - apply subset_spec. intros w Hw. apply mem_In. rewrite <- (HU v w (or_introl eq_refl) Hw). exact M.
    - apply not_true_iff_false. rewrite subset_spec. intros I. apply mem_nIn in M. apply M, I. now left. }
  assert (SB : skel (build_tree L) = skel t) by (symmetry; exact SKB).
  assert (SD : sided (inside S t) P (tnodes (build_tree L))).
  { intros k c Hc. destruct (build_nodes_in L k c Hc) as (d & Hd & -> & ->). split; [apply UL', Hd|apply IN, Hd]. }
  assert (SD' : sided (inside S t) P (tnodes t)) by (eapply sided_skel; [exact SB|exact SD]).
  split; [split|split].
  - exact SD'.
  - apply (tclosed_skel _ (build_tree L)); [exact SB|]. intros k w Hw.
    assert (A := build_apart P (inside S t) L UL IN). unfold neighbours in Hw. destruct (dget k (tadj (build_tree L))) as [l|] eqn:EG; [|destruct Hw].
    apply (A k l w); [apply dget_In, EG|exact Hw].
  - intros NE. rewrite part_eq. unfold create_jointree. destruct (filter P o) as [|v l] eqn:EF; [congruence|]. rewrite <- EF in *. 
    replace (order_or_default (restrict b S) (Some (filter P o))) with (Ok (filter P o)) by (rewrite EF; reflexivity). cbn [rbind].
    rewrite (moral_part b WB EM S AP), E'. cbn [rbind]. rewrite (prune_part P cs L U EL). cbn [rbind].
    rewrite <- (build_part P (inside S t) L UL IN).
    destruct (factors_part b WB S (inside S t) (build_tree L) SD) as (t' & ET' & _ & R); [rewrite <- clear_build; apply sound_clear|].
    rewrite ET in ET'. injection ET' as <-. exact R.
  - intros HL NO. assert (NL : L <> []).
    { intros ->. destruct (clus_last _ _ _ C NO) as (l & X).
      specialize (LA (fun c => match c with [] => false | _ => true end)). rewrite X in LA. cbn in LA. discriminate LA.
      intros c d Hc Hd _. destruct (U' c Hc) as [N1 _], (U' d Hd) as [N2 _]. destruct c; [congruence|]. destruct d; [congruence|]. reflexivity. }
    destruct (build_first L NL) as (rest & EK). exists (key_of (last L [])), rest. split.
    + rewrite <- (skel_keys _ _ SB). exact EK.
    + rewrite IN by (destruct (exists_last NL) as (l & x & ->); rewrite last_last; apply in_elt).
      rewrite (LA (here P)); [|intros c d Hc Hd HS; apply subset_here; auto].
      destruct (clus_last _ _ _ C NO) as (l & ->). cbn [here]. apply mem_In, HL.
Qed.
End Create.
