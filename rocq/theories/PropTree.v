(** Properties C09, C13 (FactorTree part), C15-C19: join trees. *)
From Coq Require Import Relations.
From Verif Require Import Base BaseFacts NDArray Factor FactorFacts Exact Spec SpecFacts Order OrderSpec FactorSpec FactorProofs VEProof2 Checks
  Instances ExampleNets PropVE JoinTree TreeSpec Hugin JTProof JTTop JTJunction JTHistory JTDefault JTPolytree JTAgain3.

(** ** The hypotheses of the theorems below are met by [net] with its default
    order; [arbo] shows the same for networks with one parent per node. *)
Lemma net_suits : suits net ["D"; "A"; "B"; "C"].
Proof. apply (suitsb_ok net _ ["A"; "B"; "C"; "D"]). vm_compute. reflexivity. Qed.

Lemma net'_wf : wf_bn net'. Proof. apply wf_bnb_ok. vm_compute. reflexivity. Qed.
Lemma net'_nonneg : nonneg_bn net'. Proof. apply nonnegb_ok. vm_compute. reflexivity. Qed.
Lemma net_ev_keys : incl (dkeys ev_example) (bnames net). Proof. apply inclb_ok. reflexivity. Qed.

Definition the_tree {SO : SetOrder} : jtree := match create_jointree net None with Ok t => t | Err _ => mkT [] [] [] false end.

Lemma the_tree_reached {SO : SetOrder} : reaches net the_tree (Some (net, [], false)).
Proof.
  assert (E : order_or_default net None = Ok ["D"; "A"; "B"; "C"]) by (vm_compute; reflexivity).
  apply (R_create net None _ _ E net_suits net_nonneg). unfold the_tree.
  destruct (create_ok net _ None net_suits net_nonneg E) as (t & r & sv & H & _). rewrite H. reflexivity.
Qed.

Lemma the_tree_answers {SO : SetOrder} Q : subset Q ["A"; "B"; "C"] = true \/ subset Q ["D"; "C"] = true -> answers the_tree Q.
Proof.
  assert (E : order_or_default net None = Ok ["D"; "A"; "B"; "C"]) by (vm_compute; reflexivity).
  intros H. apply answers_in_clique. unfold the_tree.
  destruct (create_ok net _ None net_suits net_nonneg E) as (t & r & sv & H' & _). rewrite H'.
  unfold create_jointree in H'. rewrite E in H'. cbn [rbind] in H'.
  remember (cluster_seq ["D"; "A"; "B"; "C"] (moral_graph net)) as cs eqn:Ecs. vm_compute in Ecs. subst cs. cbn [rbind] in H'.
  remember (prune [["D"; "C"]; ["A"; "B"; "C"]; ["B"; "C"]; ["C"]]) as L eqn:EL. vm_compute in EL. subst L. cbn [rbind] in H'.
  apply skel_assign_factors in H'.
  match type of H' with skel _ = skel ?u => apply (JTProof2.in_clique_skel u); [symmetry; exact H'|] end.
  destruct H as [H|H]; apply subset_spec in H; [exists "ABC"|exists "DC"]; (split; [|vm_compute; tauto]); exact H.
Qed.

(** ** C16.  Missing for the full claim: the tree has to be in one piece (the code adds no
    fill-in edges, so that it may fall apart, as it does if the network is not
    connected) and the joined names unambiguous ([suits]). *)
Theorem C16_junction_tree_partial {SO : SetOrder} b o order :
  suits b o -> nonneg_bn b -> order_or_default b order = Ok o ->
  exists t, create_jointree b order = Ok t /\ junction_tree b (tree_keys t) (tree_adj t) (tree_vars t).
Proof. exact (create_junction b o order). Qed.

(** Falling apart is the only way to fail: for every elimination order whatsoever, a tree in
    one piece is a junction tree. *)
Theorem C16_one_piece {SO : SetOrder} b o order t :
  wf_bn b -> wf_graph b -> nonneg_bn b -> edges_match b -> bnodes b <> [] -> decodable (bnames b) ->
  order_or_default b order = Ok o -> Permutation (bnames b) o -> create_jointree b order = Ok t ->
  (junction_tree b (tree_keys t) (tree_adj t) (tree_vars t) <-> joined (tree_keys t) (tree_adj t)).
Proof.
  intros WB WG NN EM NE DC EO PO EC. split; [apply jt_joined|]. intros J.
  assert (S := joined_suits b o order t WB WG EM NE PO DC EO EC J).
  destruct (create_junction b o order S NN EO) as (t' & E & JT). congruence.
Qed.

(** Perfect elimination orders of connected networks do it. *)
Theorem C16_perfect {SO : SetOrder} b o order :
  wf_bn b -> wf_graph b -> nonneg_bn b -> edges_match b -> bnodes b <> [] -> decodable (bnames b) ->
  order_or_default b order = Ok o -> Permutation (bnames b) o -> perfect_order b o -> one_component b ->
  exists t, create_jointree b order = Ok t /\ junction_tree b (tree_keys t) (tree_adj t) (tree_vars t).
Proof.
  intros WB WG NN EM NE DC EO PO PF OC. apply (create_junction b o order); [|exact NN|exact EO]. apply perfect_suits; assumption.
Qed.

Example C16_perfect_example : wf_bn net /\ wf_graph net /\ nonneg_bn net /\ edges_match net /\ bnodes net <> [] /\ decodable (bnames net) /\
  order_or_default net None = Ok ["D"; "A"; "B"; "C"] /\ Permutation (bnames net) ["D"; "A"; "B"; "C"] /\
  perfect_order net ["D"; "A"; "B"; "C"] /\ one_component net.
Proof.
  destruct net_suits as [WB WG EM NE PO OP DC]. split; [exact WB|]. split; [exact WG|]. split; [exact net_nonneg|]. split; [exact EM|]. split; [exact NE|].
  split; [exact DC|]. split; [vm_compute; reflexivity|]. split; [exact PO|]. split; [apply perfectb_ok; vm_compute; reflexivity|].
  apply (chained_ok net ["A"; "B"; "C"; "D"]); [reflexivity|tauto].
Qed.

(** An order that is not perfect; the clique VYZ gets no table with Z. *)
Definition kite_order : list string := ["W"; "V"; "Y"; "Z"; "X"].
Definition kite_tree : jtree := match @create_jointree listing_order kite (Some kite_order) with Ok t => t | Err _ => mkT [] [] [] false end.
Example C16_one_piece_example :
  wf_bn kite /\ wf_graph kite /\ nonneg_bn kite /\ edges_match kite /\ bnodes kite <> [] /\ decodable (bnames kite) /\
  order_or_default kite (Some kite_order) = Ok kite_order /\ Permutation (bnames kite) kite_order /\
  @create_jointree listing_order kite (Some kite_order) = Ok kite_tree /\ joined (tree_keys kite_tree) (tree_adj kite_tree) /\
  map (tree_vars kite_tree) (tree_keys kite_tree) = [["W"; "V"; "Z"; "X"]; ["V"; "Y"; "Z"]] /\
  ~ perfect_order kite kite_order.
Proof.
  split; [apply wf_bnb_ok; vm_compute; reflexivity|]. split; [apply wf_graphb_ok; vm_compute; reflexivity|].
  split; [apply nonnegb_ok; vm_compute; reflexivity|]. split; [apply edges_matchb_ok; vm_compute; reflexivity|].
  split; [discriminate|]. split; [apply prefix_free_decodable, prefix_freeb_ok; reflexivity|]. split; [reflexivity|].
  split; [apply permb_ok; reflexivity|]. split; [vm_compute; reflexivity|].
  assert (K : tree_keys kite_tree = ["WVZX"; "VYZ"]) by (vm_compute; reflexivity).
  split; [|split; [vm_compute; reflexivity|]].
  - assert (A : tree_adj kite_tree "WVZX" "VYZ") by (vm_compute; tauto). assert (B : tree_adj kite_tree "VYZ" "WVZX") by (vm_compute; tauto).
    intros k k'. rewrite K. intros [<-|[<-|[]]] [<-|[<-|[]]]; solve [apply rt_refl|apply rt_step; assumption].
  - intros P. assert (W : In (nth 2 (bnodes kite) (root "A")) (bnodes kite)) by (cbn; tauto). assert (X : In (nth 3 (bnodes kite) (root "A")) (bnodes kite)) by (cbn; tauto).
    destruct (P [] "W" ["V"; "Y"; "Z"; "X"] eq_refl "Z" "X") as (_ & n & Hn & H1 & H2).
    + cbn; tauto. + cbn; tauto.
    + split; [discriminate|]. eexists. split; [exact W|]. cbn; tauto.
    + split; [discriminate|]. eexists. split; [exact X|]. cbn; tauto.
    + discriminate.
    + repeat (destruct Hn as [<-|Hn]; [cbn in H1, H2; intuition discriminate|]). contradiction.
Qed.

(** One parent per node, arcs upwards in some rank, default order: the hypothesis on the order holds. *)
Theorem C16_single_parent {SO : SetOrder} b rank :
  wf_bn b -> wf_graph b -> nonneg_bn b -> edges_match b -> single_parent b -> ranked b rank ->
  bnodes b <> [] -> one_component b -> prefix_free (bnames b) ->
  exists t, create_jointree b None = Ok t /\ junction_tree b (tree_keys t) (tree_adj t) (tree_vars t).
Proof.
  intros WB WG NN EM SP RK NE OC PF. destruct (tree_default_suits b rank WB WG EM SP RK NE OC PF) as (o & E & S).
  exact (create_junction b o None S NN E).
Qed.

Example C16_example : suits net ["D"; "A"; "B"; "C"] /\ nonneg_bn net /\ order_or_default net None = Ok ["D"; "A"; "B"; "C"].
Proof. split; [exact net_suits|]. split; [exact net_nonneg|]. vm_compute. reflexivity. Qed.

Definition arbo_rank (v : string) : nat := idx v ["R"; "S1"; "S2"; "T"].
Example C16_single_parent_example :
  wf_bn arbo /\ wf_graph arbo /\ nonneg_bn arbo /\ edges_match arbo /\ single_parent arbo /\ ranked arbo arbo_rank /\
  bnodes arbo <> [] /\ one_component arbo /\ prefix_free (bnames arbo).
Proof.
  split; [apply wf_bnb_ok; vm_compute; reflexivity|]. split; [apply wf_graphb_ok; vm_compute; reflexivity|].
  split; [apply nonnegb_ok; vm_compute; reflexivity|]. split; [apply edges_matchb_ok; vm_compute; reflexivity|].
  split; [intros n Hn; repeat (destruct Hn as [<-|Hn]; [cbn; lia|]); contradiction|].
  split; [intros u v H; repeat (destruct H as [E|H]; [inversion E; vm_compute; lia|]); contradiction|].
  split; [discriminate|]. split; [|apply prefix_freeb_ok; reflexivity].
  apply (chained_ok arbo ["R"; "S1"; "S2"; "T"]); [reflexivity|tauto].
Qed.

(** Any number of parents, but no cycle in the skeleton, default order. *)
Theorem C16_polytree {SO : SetOrder} b :
  wf_bn b -> wf_graph b -> nonneg_bn b -> edges_match b -> polytree b ->
  bnodes b <> [] -> one_component b -> prefix_free (bnames b) ->
  exists t, create_jointree b None = Ok t /\ junction_tree b (tree_keys t) (tree_adj t) (tree_vars t).
Proof.
  intros WB WG NN EM PT NE OC PF. destruct (poly_default_suits b WB WG EM PT NE OC (prefix_free_decodable _ PF)) as (o & E & S).
  exact (create_junction b o None S NN E).
Qed.

Lemma poly_wf : wf_bn poly. Proof. apply wf_bnb_ok. vm_compute. reflexivity. Qed.
Lemma poly_graph : wf_graph poly. Proof. apply wf_graphb_ok. vm_compute. reflexivity. Qed.
Example C16_polytree_example :
  wf_bn poly /\ wf_graph poly /\ nonneg_bn poly /\ edges_match poly /\ polytree poly /\
  bnodes poly <> [] /\ one_component poly /\ prefix_free (bnames poly) /\ ~ single_parent poly.
Proof.
  split; [exact poly_wf|]. split; [exact poly_graph|].
  split; [apply nonnegb_ok; vm_compute; reflexivity|]. split; [apply edges_matchb_ok; vm_compute; reflexivity|].
  split; [apply (stripsb_ok poly ["A"; "B"; "C"; "E"; "D"; "F"] poly_graph);
          [apply nodup_s_spec; reflexivity|reflexivity|apply inclb_ok; reflexivity]|].
  split; [discriminate|].
  split; [apply (chained_ok poly ["A"; "B"; "C"; "E"; "D"; "F"]); [reflexivity|tauto]|].
  split; [apply prefix_freeb_ok; reflexivity|].
  intros S. specialize (S (nth 2 (bnodes poly) (root "A")) ltac:(cbn; tauto)). cbn in S. lia.
Qed.

(** A connected network and the default order: the tree falls apart. *)
Theorem C16_refuted {SO : SetOrder} :
  exists b t, wf_bn b /\ wf_graph b /\ nonneg_bn b /\ edges_match b /\ one_component b /\ prefix_free (bnames b) /\
    create_jointree b None = Ok t /\ ~ joined (tree_keys t) (tree_adj t) /\
    ~ junction_tree b (tree_keys t) (tree_adj t) (tree_vars t).
Proof.
  assert (E : order_or_default loop5 None = Ok ["A"; "B"; "C"; "E"; "D"]) by (vm_compute; reflexivity).
  assert (WB : wf_bn loop5) by (apply wf_bnb_ok; vm_compute; reflexivity).
  assert (NN : nonneg_bn loop5) by (apply nonnegb_ok; vm_compute; reflexivity).
  pose (L := [["A"; "B"; "E"]; ["B"; "C"]; ["C"; "D"; "E"]]).
  destruct (load_nodes loop5 WB (bnodes loop5) NN (incl_refl _) (build_tree L) (fun _ => []) (fun _ _ => 1%Qc) (fun _ => 1%Qc))
    as (t & sc & psi & Ea & S & _).
  { apply nodup_s_spec. reflexivity. }
  { intros k. unfold cvo. cbn. destruct (String.eqb k "CDE"); [apply inclb_ok; reflexivity|].
    destruct (String.eqb k "BC"); [apply inclb_ok; reflexivity|]. destruct (String.eqb k "ABE"); [apply inclb_ok; reflexivity|]. intros ? []. }
  { intros n Hn. repeat (destruct Hn as [<-|Hn]; [eexists; vm_compute; reflexivity|]). contradiction. }
  { rewrite <- JTBuild3.clear_build. apply load_clear. }
  { rewrite <- JTBuild3.clear_build. apply trivial_clear. }
  assert (Ec : create_jointree loop5 None = Ok t).
  { unfold create_jointree. rewrite E. cbn [rbind].
    remember (cluster_seq ["A"; "B"; "C"; "E"; "D"] (moral_graph loop5)) as cs eqn:Ecs. vm_compute in Ecs. subst cs. cbn [rbind].
    match goal with |- context [prune ?x] => remember (prune x) as L' eqn:EL end. vm_compute in EL. subst L'. cbn [rbind]. exact Ea. }
  assert (NJ : ~ joined (tree_keys t) (tree_adj t)).
  { intros J. assert (K : tree_keys t = ["CDE"; "BC"; "ABE"]) by (unfold tree_keys; rewrite (skel_keys _ _ S); reflexivity).
    specialize (J "ABE" "BC"). rewrite K in J. specialize (J ltac:(cbn; tauto) ltac:(cbn; tauto)).
    assert (F : forall x y, clos_refl_trans string (tree_adj t) x y -> x = "ABE" -> y = "ABE").
    { intros x y C. induction C as [x y C| |]; [|auto|auto]. intros ->. exfalso. unfold tree_adj in C. rewrite (skel_adj _ _ S) in C. exact C. }
    specialize (F _ _ J eq_refl). discriminate. }
  exists loop5, t. split; [exact WB|]. split; [apply wf_graphb_ok; vm_compute; reflexivity|]. split; [exact NN|].
  split; [apply edges_matchb_ok; vm_compute; reflexivity|].
  split; [apply (chained_ok loop5 ["A"; "B"; "C"; "D"; "E"]); [reflexivity|cbn; tauto]|].
  split; [apply prefix_freeb_ok; reflexivity|]. split; [exact Ec|]. split; [exact NJ|].
  intros J. apply NJ, J.
Qed.

(** ** C15.  Missing for the full claim: [suits], as for C16. *)
Theorem C15_tree_is_posterior_partial {SO : SetOrder} b o order t ev Q :
  suits b o -> nonneg_bn b -> order_or_default b order = Ok o -> create_jointree b order = Ok t ->
  ev_ok b ev -> incl (dkeys ev) (bnames b) -> NoDup Q -> answers t Q ->
  exists t' f, set_evidence b ev false t = (t', Ok tt) /\ snd (tmarginals t' Q) = Ok f /\ reports b f Q (posterior b ev).
Proof. exact (tree_marginals b o order t ev Q). Qed.

(** ... without evidence, directly after create_jointree. *)
Theorem C15_tree_prior_partial {SO : SetOrder} b o order t Q :
  suits b o -> nonneg_bn b -> order_or_default b order = Ok o -> create_jointree b order = Ok t -> NoDup Q -> answers t Q ->
  exists f, snd (tmarginals t Q) = Ok f /\ reports b f Q (posterior b []).
Proof.
  intros S NN EO EC ND A. destruct (history_marginals b t b [] false Q (R_create b order o t EO S NN EC) ND A) as (ev' & f & -> & H). eauto.
Qed.

(** For every elimination order: a tree in one piece is exact. *)
Theorem C15_one_piece {SO : SetOrder} b o order t ev Q :
  wf_bn b -> wf_graph b -> nonneg_bn b -> edges_match b -> bnodes b <> [] -> decodable (bnames b) ->
  order_or_default b order = Ok o -> Permutation (bnames b) o -> create_jointree b order = Ok t -> joined (tree_keys t) (tree_adj t) ->
  ev_ok b ev -> incl (dkeys ev) (bnames b) -> NoDup Q -> answers t Q ->
  exists t' f, set_evidence b ev false t = (t', Ok tt) /\ snd (tmarginals t' Q) = Ok f /\ reports b f Q (posterior b ev).
Proof.
  intros WB WG NN EM NE DC EO PO EC J. apply (tree_marginals b o order t ev Q); try assumption. exact (joined_suits b o order t WB WG EM NE PO DC EO EC J).
Qed.

(** The hypotheses are those of C16_one_piece_example and: *)
Example C15_one_piece_evidence : ev_ok kite [("X", Hard "t"); ("Z", Soft [qq 1 3; 1%Qc])] /\
  incl (dkeys [("X", Hard "t"); ("Z", Soft [qq 1 3; 1%Qc])]) (bnames kite) /\ NoDup ["Y"; "Z"] /\ answers kite_tree ["Y"; "Z"].
Proof.
  split; [apply ev_okb_ok; vm_compute; reflexivity|]. split; [apply inclb_ok; reflexivity|]. split; [apply nodup_s_spec; reflexivity|].
  exists "VYZ". split; [vm_compute; tauto|apply inclb_ok; vm_compute; reflexivity].
Qed.

(** Every family is a query that can be answered. *)
Theorem C15_families_answered {SO : SetOrder} b o order t n :
  suits b o -> nonneg_bn b -> order_or_default b order = Ok o -> create_jointree b order = Ok t -> In n (bnodes b) ->
  answers t (dn_name n :: map fst (dn_parents n)).
Proof.
  intros S NN EO EC Hn. destruct (create_junction b o order S NN EO) as (t' & E & J). rewrite EC in E. inversion E; subst t'.
  destruct (jt_families _ _ _ _ J n Hn) as (k & Hk & I). exists k. auto.
Qed.

(** Networks without cycles in the skeleton, default order: exact for every evidence and every family. *)
Theorem C15_polytree {SO : SetOrder} b :
  wf_bn b -> wf_graph b -> nonneg_bn b -> edges_match b -> polytree b ->
  bnodes b <> [] -> one_component b -> prefix_free (bnames b) ->
  exists t, create_jointree b None = Ok t /\
    (forall n, In n (bnodes b) -> answers t (dn_name n :: map fst (dn_parents n))) /\
    forall ev Q, ev_ok b ev -> incl (dkeys ev) (bnames b) -> NoDup Q -> answers t Q ->
      exists t' f, set_evidence b ev false t = (t', Ok tt) /\ snd (tmarginals t' Q) = Ok f /\ reports b f Q (posterior b ev).
Proof.
  intros WB WG NN EM PT NE OC PF. destruct (poly_default_suits b WB WG EM PT NE OC (prefix_free_decodable _ PF)) as (o & E & S).
  destruct (create_junction b o None S NN E) as (t & Et & _). exists t. split; [exact Et|]. split.
  - intros n Hn. exact (C15_families_answered b o None t n S NN E Et Hn).
  - intros ev Q EV K ND A. exact (tree_marginals b o None t ev Q S NN E Et EV K ND A).
Qed.

(** The hypotheses are those of C16_polytree_example. *)
Example C15_polytree_evidence : ev_ok poly [("F", Hard "t"); ("C", Soft [1%Qc; 0%Qc; qq 1 2])] /\
  incl (dkeys [("F", Hard "t"); ("C", Soft [1%Qc; 0%Qc; qq 1 2])]) (bnames poly).
Proof. split; [apply ev_okb_ok; vm_compute; reflexivity|apply inclb_ok; reflexivity]. Qed.

Example C15_example {SO : SetOrder} :
  suits net ["D"; "A"; "B"; "C"] /\ nonneg_bn net /\ order_or_default net None = Ok ["D"; "A"; "B"; "C"] /\
  create_jointree net None = Ok the_tree /\ ev_ok net ev_example /\ incl (dkeys ev_example) (bnames net) /\ NoDup ["C"; "A"] /\
  answers the_tree ["C"; "A"].
Proof.
  split; [exact net_suits|]. split; [exact net_nonneg|]. split; [vm_compute; reflexivity|]. split.
  - unfold the_tree. destruct (create_ok net _ None net_suits net_nonneg (eq_refl : order_or_default net None = Ok ["D"; "A"; "B"; "C"])) as (t & r & sv & H & _). rewrite H. reflexivity.
  - split; [exact net_ev|]. split; [exact net_ev_keys|]. split; [apply nodup_s_spec; reflexivity|]. apply the_tree_answers. left. reflexivity.
Qed.

(** [loop5] is connected and its default order is used: wrong marginals of D. *)
Theorem C15_refuted : exists (SO : SetOrder) b t f,
  wf_bn b /\ wf_graph b /\ nonneg_bn b /\ edges_match b /\ one_component b /\ prefix_free (bnames b) /\
  create_jointree b None = Ok t /\ answers t ["D"] /\ snd (tmarginals t ["D"]) = Ok f /\ ~ reports b f ["D"] (posterior b []).
Proof.
  exists listing_order, loop5. eexists. eexists.
  split; [apply wf_bnb_ok; vm_compute; reflexivity|]. split; [apply wf_graphb_ok; vm_compute; reflexivity|].
  split; [apply nonnegb_ok; vm_compute; reflexivity|]. split; [apply edges_matchb_ok; vm_compute; reflexivity|].
  split; [apply (chained_ok loop5 ["A"; "B"; "C"; "D"; "E"]); [reflexivity|cbn; tauto]|].
  split; [apply prefix_freeb_ok; reflexivity|]. split; [vm_compute; reflexivity|].
  split; [exists "CDE"; split; [vm_compute; tauto|apply inclb_ok; vm_compute; reflexivity]|]. split; [vm_compute; reflexivity|].
  intros (_ & _ & _ & _ & _ & _ & H). specialize (H [("D", "t")]). 
  assert (I : is_inst loop5 ["D"] [("D", "t")]).
  { split; [apply nodup_s_spec; reflexivity|]. split; [reflexivity|]. intros v x [E|[]]. inversion E. vm_compute. tauto. }
  specialize (H I). apply (f_equal this) in H. vm_compute in H. discriminate.
Qed.

(** A network of two chains, its default order, no evidence: no messages are passed
    among the cliques of the chain that does not hold the first clique of the tree. *)
Theorem C15_disconnected_refuted : exists (SO : SetOrder) b t f,
  wf_bn b /\ wf_graph b /\ nonneg_bn b /\ edges_match b /\ polytree b /\ prefix_free (bnames b) /\
  create_jointree b None = Ok t /\ answers t ["C"] /\ snd (tmarginals t ["C"]) = Ok f /\ ~ reports b f ["C"] (posterior b []).
Proof.
  exists listing_order, chains. eexists. eexists. assert (WG : wf_graph chains) by (apply wf_graphb_ok; vm_compute; reflexivity).
  split; [apply wf_bnb_ok; vm_compute; reflexivity|]. split; [exact WG|].
  split; [apply nonnegb_ok; vm_compute; reflexivity|]. split; [apply edges_matchb_ok; vm_compute; reflexivity|].
  split; [apply (stripsb_ok chains ["A"; "B"; "C"; "X"; "Y"; "Z"] WG); [apply nodup_s_spec; reflexivity|reflexivity|apply inclb_ok; reflexivity]|].
  split; [apply prefix_freeb_ok; reflexivity|]. split; [vm_compute; reflexivity|].
  split; [exists "BC"; split; [vm_compute; tauto|apply inclb_ok; vm_compute; reflexivity]|]. split; [vm_compute; reflexivity|].
  intros (_ & _ & _ & _ & _ & _ & H). specialize (H [("C", "t")]).
  assert (I : is_inst chains ["C"] [("C", "t")]).
  { split; [apply nodup_s_spec; reflexivity|]. split; [reflexivity|]. intros v x [E|[]]. inversion E. vm_compute. tauto. }
  specialize (H I). apply (f_equal this) in H. vm_compute in H. discriminate.
Qed.

(** Two clusters whose joined names coincide are one node of the tree: the query for c fails. *)
Theorem C15_name_clash_refuted : exists (SO : SetOrder) b t e,
  wf_bn b /\ wf_graph b /\ nonneg_bn b /\ edges_match b /\ one_component b /\ single_parent b /\
  In "c" (bnames b) /\ create_jointree b None = Ok t /\ snd (tmarginals t ["c"]) = Err e.
Proof.
  exists listing_order, chn. eexists. eexists.
  split; [apply wf_bnb_ok; vm_compute; reflexivity|]. split; [apply wf_graphb_ok; vm_compute; reflexivity|].
  split; [apply nonnegb_ok; vm_compute; reflexivity|]. split; [apply edges_matchb_ok; vm_compute; reflexivity|].
  split; [apply (chained_ok chn ["a"; "bc"; "ab"; "c"]); [reflexivity|tauto]|].
  split; [intros n Hn; repeat (destruct Hn as [<-|Hn]; [cbn; lia|]); contradiction|].
  split; [vm_compute; tauto|]. split; vm_compute; reflexivity.
Qed.

(** ** C13, FactorTree part (missing: [suits], as for C16) *)
Theorem C13_tree_distribution_partial {SO : SetOrder} b0 t b ev Q f :
  reaches b0 t (Some (b, ev, false)) -> ev_ok b ev -> NoDup Q -> answers t Q -> snd (tmarginals t Q) = Ok f ->
  Forall (fun x => 0 <= x)%Qc (data (pot f)) /\
  (mass b ev [] <> 0%Qc -> qsum (data (pot f)) = 1%Qc) /\
  (mass b ev [] = 0%Qc -> Forall (fun x => x = 0%Qc) (data (pot f))).
Proof. exact (tree_distribution b0 t b ev Q f). Qed.

(** Disconnected networks: impossible evidence on X does not reach A and B. *)
Theorem C13_disconnected_refuted : exists (SO : SetOrder) b t ev t' f,
  wf_bn b /\ wf_graph b /\ nonneg_bn b /\ ev_ok b ev /\ create_jointree b None = Ok t /\ mass b ev [] = 0%Qc /\
  set_evidence b ev false t = (t', Ok tt) /\ snd (tmarginals t' ["A"]) = Ok f /\ qsum (data (pot f)) = 1%Qc.
Proof.
  exists listing_order, two. eexists. exists [("X", Soft [0%Qc; 0%Qc])]. eexists. eexists.
  split; [apply wf_bnb_ok; vm_compute; reflexivity|]. split; [apply wf_graphb_ok; vm_compute; reflexivity|].
  split; [apply nonnegb_ok; vm_compute; reflexivity|]. split; [apply ev_okb_ok; vm_compute; reflexivity|].
  split; [vm_compute; reflexivity|]. split; [qc|]. split; [vm_compute; reflexivity|]. split; [vm_compute; reflexivity|]. qc.
Qed.

(** ** C17.  [reaches b0 t (Some (b, ev, soft))]: the last call that set the
    tree's evidence was set_evidence(ev) (create_jointree and reset_factors
    set none), while the network was in state b.  Missing for the full claim:
    tables changed afterwards are not seen (next theorem), and [suits]. *)
Theorem C17_history_partial {SO : SetOrder} b0 t b ev soft Q :
  reaches b0 t (Some (b, ev, soft)) -> NoDup Q -> answers t Q ->
  exists ev' f, (if soft then meant b ev ev' else ev' = ev) /\ snd (tmarginals t Q) = Ok f /\ reports b f Q (posterior b ev').
Proof. exact (history_marginals b0 t b ev soft Q). Qed.

(** The calls in such histories succeed, and they do not change which queries can be answered. *)
Theorem C17_calls_succeed {SO : SetOrder} b0 t k b ev :
  reaches b0 t k -> same_arcs b0 b -> wf_bn b -> nonneg_bn b -> ev_ok b ev -> incl (dkeys ev) (bnames b) ->
  snd (set_evidence b ev false t) = Ok tt /\ snd (reset_factors b t) = Ok tt /\
  (supported b ev -> snd (set_evidence b ev true t) = Ok tt) /\
  forall soft Q, answers (fst (set_evidence b ev soft t)) Q <-> answers t Q.
Proof. exact (calls_succeed b0 t k b ev). Qed.

Example C17_example {SO : SetOrder} :
  exists t, reaches net t (Some (net', [("C", Hard "t")], false)) /\ answers t ["B"; "C"] /\ same_arcs net net'.
Proof.
  assert (SA : same_arcs net net') by reflexivity.
  assert (R1 := R_evidence net net ev_example the_tree _ the_tree_reached eq_refl net_wf net_nonneg net_ev net_ev_keys).
  assert (R2 := R_any net net [("Nope", Hard "t")] true _ _ (R_query net ["A"] _ _ R1)).
  assert (EV : ev_ok net' [("C", Hard "t")]) by (apply ev_okb_ok; vm_compute; reflexivity).
  assert (K : incl (dkeys [("C", Hard "t")]) (bnames net')) by (apply inclb_ok; reflexivity).
  assert (R3 := R_evidence net net' [("C", Hard "t")] _ _ R2 SA net'_wf net'_nonneg EV K).
  eexists. split; [exact R3|]. split; [|exact SA].
  apply (calls_succeed net _ _ net' _ R2 SA net'_wf net'_nonneg EV K).
  apply answers_skel with (t := the_tree); [|apply the_tree_answers; left; reflexivity].
  rewrite skel_set_evidence, skel_marginals, skel_set_evidence. reflexivity.
Qed.

(** Tables changed after the last set_evidence or reset_factors are not seen. *)
Theorem C17_current_tables_refuted : exists (SO : SetOrder) b b' t f,
  suits b ["D"; "A"; "B"; "C"] /\ nonneg_bn b /\ same_arcs b b' /\ wf_bn b' /\ nonneg_bn b' /\ create_jointree b None = Ok t /\
  answers t ["A"] /\ snd (tmarginals t ["A"]) = Ok f /\ ~ reports b' f ["A"] (posterior b' []).
Proof.
  exists listing_order, net, net'. eexists. eexists. split; [exact net_suits|]. split; [exact net_nonneg|]. split; [reflexivity|].
  split; [exact net'_wf|]. split; [exact net'_nonneg|]. split; [vm_compute; reflexivity|].
  split; [exists "ABC"; split; [vm_compute; tauto|apply inclb_ok; vm_compute; reflexivity]|]. split; [vm_compute; reflexivity|].
  intros (_ & _ & _ & _ & _ & _ & H). specialize (H [("A", "t")]).
  assert (I : is_inst net' ["A"] [("A", "t")]).
  { split; [apply nodup_s_spec; reflexivity|]. split; [reflexivity|]. intros v x [E|[]]. inversion E. vm_compute. tauto. }
  specialize (H I). apply (f_equal this) in H. vm_compute in H. discriminate.
Qed.

(** ** C18 (missing: trees other than those of [reaches], see C16) *)
Theorem C18_messages_again_partial {SO : SetOrder} b0 t k :
  reaches b0 t (Some k) -> tvalid t = true ->
  exists t', calculate_messages t = (t', Ok tt) /\ tnodes t' = tnodes t /\ tvalid t' = true.
Proof. exact (messages_again b0 t k). Qed.

Theorem C18_queries_again_partial {SO : SetOrder} b0 t k Q Q' :
  reaches b0 t (Some k) ->
  let t1 := fst (tmarginals t Q) in let t2 := fst (tmarginals t1 Q') in
  snd (tmarginals t2 Q) = snd (tmarginals t Q) /\ t2 = t1.
Proof. exact (marginals_again b0 t k Q Q'). Qed.

Example C18_example {SO : SetOrder} : exists t, reaches net t (Some (net, [("A", Hard "t"); ("B", Hard "z")], false)) /\ tvalid t = true /\
  mass net [("A", Hard "t"); ("B", Hard "z")] [] = 0%Qc.
Proof.
  assert (EV : ev_ok net [("A", Hard "t"); ("B", Hard "z")]) by (apply ev_okb_ok; vm_compute; reflexivity).
  assert (K : incl (dkeys [("A", Hard "t"); ("B", Hard "z")]) (bnames net)) by (apply inclb_ok; reflexivity).
  assert (R := R_evidence net net _ the_tree _ the_tree_reached eq_refl net_wf net_nonneg EV K).
  exists (fst (tmarginals (fst (set_evidence net [("A", Hard "t"); ("B", Hard "z")] false the_tree)) [])).
  split; [apply R_query, R|]. split; [eapply marginals_tree_valid, R|]. qc.
Qed.

(** Any order, any calls before: a second pass over a consistent tree changes no
    clique table and no answer.  Missing: unambiguous joined names, and no
    exception; both are needed (refutations below). *)
Theorem C18_any_order_partial {SO : SetOrder} b0 t :
  wf_bn b0 -> wf_graph b0 -> nonneg_bn b0 -> decodable (bnames b0) -> session b0 t -> tvalid t = true ->
  let t' := fst (calculate_messages t) in
  tnodes t' = tnodes t /\ tadj t' = tadj t /\ tvalid t' = true /\
  (snd (calculate_messages t) = Ok tt \/ snd (calculate_messages t) = Err FloatingPointError /\ zero_separator t') /\
  (forall Q, snd (tmarginals t' Q) = snd (tmarginals t Q)).
Proof. intros WB WG NN DC. exact (session_again b0 WB WG NN DC t). Qed.

Lemma session_hyps b : wf_bnb b && wf_graphb b && nonnegb b && prefix_freeb (bnames b) = true ->
  wf_bn b /\ wf_graph b /\ nonneg_bn b /\ decodable (bnames b).
Proof.
  rewrite !andb_true_iff. intros (((A & B) & C) & D). split; [apply wf_bnb_ok, A|]. split; [apply wf_graphb_ok, B|].
  split; [apply nonnegb_ok, C|]. apply prefix_free_decodable, prefix_freeb_ok, D.
Qed.

(** [loop5] is not triangulated. *)
Example C18_any_order_example : exists (SO : SetOrder) t, wf_bn loop5 /\ wf_graph loop5 /\ nonneg_bn loop5 /\ decodable (bnames loop5) /\
  session loop5 t /\ tvalid t = true /\ length (tnodes t) = 3.
Proof.
  exists listing_order. eexists. destruct (session_hyps loop5) as (A & B & C & D); [vm_compute; reflexivity|]. do 4 (split; [assumption|]).
  split; [eapply (S_evidence loop5 loop5 [("D", Hard "t")] false);
          [eapply (S_create loop5 None); vm_compute; reflexivity|reflexivity|assumption|assumption|intros v q [E|[]]; discriminate]|].
  split; vm_compute; reflexivity.
Qed.

(** Second pass over a consistent tree: division by a zero separator. *)
Theorem C18_second_pass_raises_refuted : exists (SO : SetOrder) b0 o t,
  wf_bn b0 /\ wf_graph b0 /\ nonneg_bn b0 /\ decodable (bnames b0) /\ Permutation (bnames b0) o /\
  create_jointree b0 (Some o) = Ok t /\
  exists t1, set_evidence b0 [("f", Hard "t")] false t = (t1, Ok tt) /\ tvalid t1 = true /\
    snd (calculate_messages t1) = Err FloatingPointError.
Proof.
  exists listing_order, stray, ["c"; "d"; "g"; "q"; "a"; "e"; "s"; "r"; "w"; "f"]. eexists.
  destruct (session_hyps stray) as (A & B & C & D); [vm_compute; reflexivity|]. do 4 (split; [assumption|]).
  split; [apply permb_ok; vm_compute; reflexivity|]. split; [vm_compute; reflexivity|].
  eexists. split; [vm_compute; reflexivity|]. split; vm_compute; reflexivity.
Qed.

(** Clusters with the same joined name: the clique sends messages to itself. *)
Theorem C18_self_loop_refuted : exists (SO : SetOrder) b0 o t,
  wf_bn b0 /\ wf_graph b0 /\ nonneg_bn b0 /\ ~ In "" (bnames b0) /\ Permutation (bnames b0) o /\
  create_jointree b0 (Some o) = Ok t /\
  exists t1 t2, calculate_messages t = (t1, Ok tt) /\ tvalid t1 = true /\ calculate_messages t1 = (t2, Ok tt) /\
    tnodes t2 <> tnodes t1 /\ snd (tmarginals t2 ["s"]) <> snd (tmarginals t1 ["s"]).
Proof.
  exists listing_order, twin, ["a"; "ab"; "bb"; "b"; "s"]. eexists.
  split; [apply wf_bnb_ok; vm_compute; reflexivity|]. split; [apply wf_graphb_ok; vm_compute; reflexivity|].
  split; [apply nonnegb_ok; vm_compute; reflexivity|]. split; [apply mem_nIn; vm_compute; reflexivity|].
  split; [apply permb_ok; vm_compute; reflexivity|]. split; [vm_compute; reflexivity|].
  do 2 eexists. split; [vm_compute; reflexivity|]. split; [reflexivity|]. split; [vm_compute; reflexivity|]. split.
  - intros E. apply (f_equal (map (fun p => map this (data (pot (cfac (snd p))))))) in E. vm_compute in E. discriminate.
  - intros E. apply (f_equal (fun x => match x with Ok f => map this (data (pot f)) | Err _ => [] end)) in E. vm_compute in E. discriminate.
Qed.

(** ** C19.  A rejected call keeps the items before the offending one.  Missing
    for the full claim: no trace also of these (refuted below). *)
Theorem C19_rejected_partial {SO : SetOrder} b0 t k b pre v e post Q :
  reaches b0 t k -> same_arcs b0 b -> wf_bn b -> nonneg_bn b ->
  ev_ok b pre -> incl (dkeys pre) (bnames b) -> rejected b v e ->
  exists t' x, set_evidence b (pre ++ (v, e) :: post) false t = (t', Err x) /\
    x = (if mem v (bnames b) then ValueError else PlainException) /\
    (NoDup Q -> answers t Q -> exists f, snd (tmarginals t' Q) = Ok f /\ reports b f Q (posterior b pre)).
Proof. exact (rejected_evidence b0 t k b pre v e post Q). Qed.

Example C19_example {SO : SetOrder} :
  reaches net the_tree (Some (net, [], false)) /\ ev_ok net [("A", Hard "t")] /\ rejected net "C" (Hard "maybe") /\
  rejected net "B" (Soft [qq 1 2; qq 1 2]) /\ rejected net "Nope" (Hard "t") /\ answers the_tree ["A"].
Proof.
  split; [exact the_tree_reached|]. split; [apply ev_okb_ok; vm_compute; reflexivity|].
  split; [right; vm_compute; intros [E|[E|[]]]; discriminate|]. split; [right; vm_compute; discriminate|].
  split; [left; vm_compute; intros [E|[E|[E|[E|[]]]]]; discriminate|]. apply the_tree_answers. left. reflexivity.
Qed.

Theorem C19_trace_refuted {SO : SetOrder} : exists b t ev x t' f,
  reaches b t (Some (b, [], false)) /\ set_evidence b ev false t = (t', Err x) /\
  snd (tmarginals t' ["A"]) = Ok f /\ ~ reports b f ["A"] (posterior b []).
Proof.
  assert (EV : ev_ok net [("A", Hard "t")]) by (apply ev_okb_ok; vm_compute; reflexivity).
  assert (K : incl (dkeys [("A", Hard "t")]) (bnames net)) by (apply inclb_ok; reflexivity).
  assert (RJ : rejected net "C" (Hard "maybe")) by (right; vm_compute; intros [E|[E|[]]]; discriminate).
  destruct (rejected_evidence net the_tree _ net [("A", Hard "t")] "C" (Hard "maybe") [] ["A"] the_tree_reached eq_refl net_wf net_nonneg EV K RJ)
    as (t' & x & E & _ & H).
  destruct H as (f & Ef & R); [apply nodup_s_spec; reflexivity|apply the_tree_answers; left; reflexivity|].
  exists net, the_tree, [("A", Hard "t"); ("C", Hard "maybe")], x, t', f. split; [exact the_tree_reached|]. split; [exact E|]. split; [exact Ef|].
  intros R'. destruct R as (_ & _ & _ & _ & _ & _ & H1), R' as (_ & _ & _ & _ & _ & _ & H2).
  assert (I : is_inst net ["A"] [("A", "t")]).
  { split; [apply nodup_s_spec; reflexivity|]. split; [reflexivity|]. intros v y [E'|[]]. inversion E'. vm_compute. tauto. }
  specialize (H1 _ I). specialize (H2 _ I). rewrite H1 in H2. apply (f_equal this) in H2. vm_compute in H2. discriminate.
Qed.

(** ** C09 *)
Theorem C09_desired_posterior {SO : SetOrder} b0 t k b v q :
  reaches b0 t k -> same_arcs b0 b -> wf_bn b -> nonneg_bn b ->
  In v (bnames b) -> length q = length (values_of b v) -> Forall (fun x => 0 <= x)%Qc q -> qsum q = 1%Qc ->
  (forall i, nth i (prior b v) 0%Qc = 0%Qc -> nth i q 0%Qc = 0%Qc) ->
  exists t' f, set_evidence b [(v, Soft q)] true t = (t', Ok tt) /\ snd (tmarginals t' [v]) = Ok f /\
    vorder f = [v] /\ dget v (fvals f) = Some (values_of b v) /\ shape (pot f) = [length (values_of b v)] /\ data (pot f) = q.
Proof. exact (desired_posterior b0 t k b v q). Qed.

Example C09_example {SO : SetOrder} :
  reaches net the_tree (Some (net, [], false)) /\ In "B" (bnames net) /\
  length [qq 1 2; qq 1 8; qq 3 8] = length (values_of net "B") /\ Forall (fun x => 0 <= x)%Qc [qq 1 2; qq 1 8; qq 3 8] /\
  qsum [qq 1 2; qq 1 8; qq 3 8] = 1%Qc /\ (forall i, nth i (prior net "B") 0%Qc = 0%Qc -> nth i [qq 1 2; qq 1 8; qq 3 8] 0%Qc = 0%Qc).
Proof.
  split; [exact the_tree_reached|]. split; [vm_compute; tauto|]. split; [reflexivity|].
  split; [repeat constructor; discriminate|]. split; [qc|].
  intros i H. destruct i as [|[|[|i]]]; [..|destruct i; reflexivity]; apply (f_equal this) in H; vm_compute in H; discriminate.
Qed.

Print Assumptions C09_desired_posterior.
Print Assumptions C13_tree_distribution_partial.
Print Assumptions C13_disconnected_refuted.
Print Assumptions C15_tree_is_posterior_partial.
Print Assumptions C15_tree_prior_partial.
Print Assumptions C15_families_answered.
Print Assumptions C15_polytree.
Print Assumptions C15_refuted.
Print Assumptions C15_disconnected_refuted.
Print Assumptions C15_name_clash_refuted.
Print Assumptions C16_one_piece.
Print Assumptions C16_perfect.
Print Assumptions C15_one_piece.
Print Assumptions C16_junction_tree_partial.
Print Assumptions C16_single_parent.
Print Assumptions C16_polytree.
Print Assumptions C16_refuted.
Print Assumptions C17_history_partial.
Print Assumptions C17_calls_succeed.
Print Assumptions C17_current_tables_refuted.
Print Assumptions C18_messages_again_partial.
Print Assumptions C18_queries_again_partial.
Print Assumptions C18_any_order_partial.
Print Assumptions C18_second_pass_raises_refuted.
Print Assumptions C18_self_loop_refuted.
Print Assumptions C19_rejected_partial.
Print Assumptions C19_trace_refuted.
