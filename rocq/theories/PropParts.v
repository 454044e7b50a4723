(** C67: join trees of networks with several components. *)
From Coq Require Import Relations.
From Verif Require Import Base BaseFacts NDArray Factor FactorFacts Exact Order OrderProof OrderSpec Spec SpecFacts SepSpec JoinTree TreeSpec JTBuild3 JTTop JTHistory JTDefault JTPolytree
  PartSpec PartGraph PartTree PartOps PartBuild PartCreate PartMass PartTop FactorProofs Checks ExampleNets Instances.

(** create_jointree puts the trees of the components next to each other: whatever the order, the
    cliques inside [S] with their tables, neighbours and separators are the tree that
    create_jointree builds for the network of [S] alone. *)
Theorem C67_parts {SO : SetOrder} b o order S :
  wf_bn b -> wf_graph b -> edges_match b -> decodable (bnames b) -> Permutation (bnames b) o -> order_or_default b order = Ok o ->
  apart b S ->
  exists t, create_jointree b order = Ok t /\
    (filter (fun v => mem v S) o <> [] -> create_jointree (restrict b S) (Some (filter (fun v => mem v S) o)) = Ok (part S t)) /\
    (forall k, In k (tree_keys t) -> tree_vars t k <> [] /\ (incl (tree_vars t k) S \/ forall v, In v (tree_vars t k) -> ~ In v S)) /\
    (forall k k', tree_adj t k k' -> inside S t k = inside S t k').
Proof.
  intros WB WG EM DC PO EO AP. destruct (create_part b WB WG EM DC o PO order EO S AP) as (t & E & [SD CL] & P & _).
  exists t. split; [exact E|]. split; [exact P|]. split; [exact (sides_of S t SD)|]. intros k k' H. symmetry. exact (CL k k' H).
Qed.

(** The messages start in the component of the last variable of the order; if the cliques of the
    component hang together, the answers about it are exact.  Evidence elsewhere has no effect on
    them, also when it is impossible. *)
Theorem C67_component {SO : SetOrder} b0 o order S t0 t b ev Q :
  wf_bn b0 -> wf_graph b0 -> edges_match b0 -> decodable (bnames b0) -> nonneg_bn b0 ->
  Permutation (bnames b0) o -> order_or_default b0 order = Ok o -> create_jointree b0 order = Ok t0 -> used t0 t ->
  apart b0 S -> joined (tree_keys (part S t0)) (tree_adj (part S t0)) -> o <> [] -> In (last o "") S ->
  same_arcs b0 b -> wf_bn b -> nonneg_bn b -> ev_ok b ev -> incl (dkeys ev) (bnames b) ->
  NoDup Q -> incl Q S -> answers t Q ->
  exists t' f, set_evidence b ev false t = (t', Ok tt) /\ snd (tmarginals t' Q) = Ok f /\
    reports b f Q (posterior (restrict b S) (ev_part S ev)) /\ (mass b ev [] <> 0%Qc -> reports b f Q (posterior b ev)) /\
    Forall (fun x => 0 <= x)%Qc (data (pot f)) /\
    (mass (restrict b S) (ev_part S ev) [] <> 0%Qc -> qsum (data (pot f)) = 1%Qc) /\
    (mass (restrict b S) (ev_part S ev) [] = 0%Qc -> Forall (fun x => x = 0%Qc) (data (pot f))).
Proof.
  intros WB0 WG EM DC NN0 PO EO EC US AP JN NO HL SA WB NN EV KN.
  exact (component_answers b0 WB0 WG EM DC o PO order EO S AP t0 t EC US JN NN0 HL NO b ev Q SA WB NN EV KN).
Qed.

(** Under a perfect elimination order the cliques of a component hang together. *)
Theorem C67_joined {SO : SetOrder} b o order S t :
  wf_bn b -> wf_graph b -> edges_match b -> decodable (bnames b) -> nonneg_bn b ->
  Permutation (bnames b) o -> perfect_order b o -> order_or_default b order = Ok o -> create_jointree b order = Ok t ->
  apart b S -> together b S -> (exists v, In v (bnames b) /\ In v S) -> joined (tree_keys (part S t)) (tree_adj (part S t)).
Proof. exact (perfect_part b o order S t). Qed.

(** ... for every network without cycles and its default order. *)
Theorem C67_polytree {SO : SetOrder} b :
  wf_bn b -> wf_graph b -> edges_match b -> nonneg_bn b -> polytree b -> prefix_free (bnames b) -> bnodes b <> [] ->
  exists o t, order_or_default b None = Ok o /\ create_jointree b None = Ok t /\ In (last o "") (bnames b) /\
    forall S ev Q, apart b S -> together b S -> In (last o "") S -> ev_ok b ev -> incl (dkeys ev) (bnames b) -> mass b ev [] <> 0%Qc ->
      NoDup Q -> incl Q S -> answers t Q ->
      exists t' f, set_evidence b ev false t = (t', Ok tt) /\ snd (tmarginals t' Q) = Ok f /\ reports b f Q (posterior b ev).
Proof. exact (polytree_component b). Qed.

(** The other components get no messages: their tables stay as they were loaded. *)
Theorem C67_elsewhere {SO : SetOrder} b o order S t0 t :
  wf_bn b -> wf_graph b -> edges_match b -> decodable (bnames b) -> Permutation (bnames b) o ->
  order_or_default b order = Ok o -> create_jointree b order = Ok t0 -> used t0 t ->
  apart b S -> o <> [] -> ~ In (last o "") S ->
  tnodes (part S (fst (calculate_messages t))) = tnodes (part S t) /\ tedges (part S (fst (calculate_messages t))) = tedges (part S t).
Proof.
  intros WB WG EM DC PO EO EC US AP NO HL. exact (elsewhere_kept b WB WG EM DC o PO order EO S AP t0 t EC US HL NO).
Qed.

(** The probability of the evidence and the posterior fall into the components'. *)
Theorem C67_posterior b S ev q Q :
  wf_bn b -> apart b S -> ev_ok b ev -> is_inst b Q q -> NoDup Q -> incl Q (bnames b) -> incl Q S ->
  mass b ev q = (mass (restrict b S) (ev_part S ev) q * mass (restrict b (filter (fun v => negb (mem v S)) (bnames b))) ev [])%Qc /\
  (mass b ev [] <> 0%Qc -> posterior b ev q = posterior (restrict b S) (ev_part S ev) q).
Proof.
  intros WB AP EV HI ND I IS. assert (QR : incl Q (bnames (restrict b S))) by (intros v Hv; apply SepRelevant.r_name; auto).
  split; [exact (mass_part b WB S AP ev q Q EV HI ND QR)|exact (posterior_part b WB S AP ev q Q EV HI ND QR)].
Qed.


(** Two chains; the default order ends in the second one. *)
Definition xyz_side : list string := ["X"; "Y"; "Z"].
Definition split_ev : evidence := [("A", Hard "t"); ("Z", Hard "f")].

Example C67_example :
  wf_bn chains /\ wf_graph chains /\ edges_match chains /\ decodable (bnames chains) /\ nonneg_bn chains /\ polytree chains /\ prefix_free (bnames chains) /\
  order_or_default chains None = Ok ["A"; "B"; "C"; "X"; "Y"; "Z"] /\ perfect_order chains ["A"; "B"; "C"; "X"; "Y"; "Z"] /\
  apart chains xyz_side /\ together chains xyz_side /\ ev_ok chains split_ev /\ incl (dkeys split_ev) (bnames chains) /\ mass chains split_ev [] <> 0%Qc /\
  exists t, @create_jointree listing_order chains None = Ok t /\ answers t ["Y"; "X"] /\
    tree_keys t = ["YZ"; "XY"; "BC"; "AB"] /\ tree_keys (part xyz_side t) = ["YZ"; "XY"] /\
    (exists k, tree_adj t "YZ" k) /\ joined (tree_keys (part xyz_side t)) (tree_adj (part xyz_side t)) /\ @used listing_order t (fst (@set_evidence listing_order chains split_ev true (fst (@tmarginals listing_order t ["Z"])))).
Proof.
  assert (WG : wf_graph chains) by (apply wf_graphb_ok; vm_compute; reflexivity).
  assert (PF : prefix_free (bnames chains)) by (apply prefix_freeb_ok; reflexivity).
  split; [apply wf_bnb_ok; vm_compute; reflexivity|]. split; [exact WG|]. split; [apply edges_matchb_ok; vm_compute; reflexivity|].
  split; [apply prefix_free_decodable, PF|]. split; [apply nonnegb_ok; vm_compute; reflexivity|].
  split; [apply (stripsb_ok chains ["A"; "B"; "C"; "X"; "Y"; "Z"] WG); [apply nodup_s_spec; reflexivity|reflexivity|apply inclb_ok; reflexivity]|].
  split; [exact PF|]. split; [vm_compute; reflexivity|]. split; [apply perfectb_ok; vm_compute; reflexivity|].
  assert (AP : apart chains xyz_side) by (apply apartb_ok; vm_compute; reflexivity). split; [exact AP|].
  split; [apply together_of; [exact AP|]; apply (chained_ok _ ["X"; "Y"; "Z"]); [reflexivity|cbn; tauto]|].
  split; [apply ev_okb_ok; vm_compute; reflexivity|]. split; [apply inclb_ok; vm_compute; reflexivity|].
  split; [intros H; apply (f_equal this) in H; vm_compute in H; discriminate|].
  eexists. split; [vm_compute; reflexivity|]. split; [exists "XY"; vm_compute; split; [tauto|intros v [<-|[<-|[]]]; auto]|].
  split; [vm_compute; reflexivity|]. split; [vm_compute; reflexivity|]. split; [exists "XY"; vm_compute; tauto|].
  split; [|apply U_evidence, U_query, U_new].
  match goal with |- joined (tree_keys ?p) _ => assert (P : tree_keys p = ["YZ"; "XY"]) by (vm_compute; reflexivity);
    assert (A : tree_adj p "YZ" "XY") by (vm_compute; tauto); assert (B : tree_adj p "XY" "YZ") by (vm_compute; tauto) end.
  intros k k'. rewrite P. intros [<-|[<-|[]]] [<-|[<-|[]]]; solve [apply rt_refl|apply rt_step; assumption].
Qed.

(** A different first component, and a query outside of it that comes out wrong, is C15_disconnected_refuted. *)
Example C67_elsewhere_example : apart chains ["A"; "B"; "C"] /\ ~ In (last ["A"; "B"; "C"; "X"; "Y"; "Z"] "") ["A"; "B"; "C"] /\
  exists t, @create_jointree listing_order chains None = Ok t /\ tree_keys (part ["A"; "B"; "C"] t) = ["BC"; "AB"] /\
    tnodes (part ["A"; "B"; "C"] (fst (@calculate_messages listing_order t))) = tnodes (part ["A"; "B"; "C"] t) /\
    tnodes (part xyz_side (fst (@calculate_messages listing_order t))) <> tnodes (part xyz_side t).
Proof.
  split; [apply apartb_ok; vm_compute; reflexivity|]. split; [vm_compute; intuition discriminate|].
  eexists. split; [vm_compute; reflexivity|]. split; [vm_compute; reflexivity|]. split; [vm_compute; reflexivity|].
  intros E. apply (f_equal (map (fun p => map this (data (pot (cfac (snd p))))))) in E. vm_compute in E. discriminate E.
Qed.

Print Assumptions C67_parts.
Print Assumptions C67_component.
Print Assumptions C67_joined.
Print Assumptions C67_polytree.
Print Assumptions C67_elsewhere.
Print Assumptions C67_posterior.
Print Assumptions C67_example.
Print Assumptions C67_elsewhere_example.
