(** Properties C56-C59: accessors, clear, topological order, cycles. *)
From Verif Require Import Base BaseFacts NDArray Factor Exact Spec OrderSpec TreeSpec Node Network NetSpec NetFacts NetInv NetOps NetRename NetTop
  NetView NetTable NetFrame NetChecks Sampling MCSpec MCProof MCForward MCMarginal FactorProofs MCChecks Checks Instances ExampleNets Access AccessProof Topo TopoSpec TopoProof TopoSample PropNet.

(** ** C56 *)
Theorem C56_names w : reached w ->
  map (obj_name (whp w)) (get_all_nodes (wnet w)) = get_all_node_names (wnet w) /\
  NoDup (get_all_node_names (wnet w)) /\ number_of_nodes (wnet w) = length (get_all_node_names (wnet w)) /\
  get_nodes (wnet w) None = Ok (get_all_nodes (wnet w)).
Proof.
  intros R. split; [apply all_nodes_named, R|]. split; [apply (structure_ok w R)|]. split; [|reflexivity].
  unfold number_of_nodes, get_all_node_names, dkeys. rewrite (same_dicts w R), map_length. reflexivity.
Qed.

Theorem C56_get_node w v : reached w ->
  (In v (get_all_node_names (wnet w)) -> exists i n, get_object (wnet w) v = Ok i /\ nth_error (whp w) i = Some n /\ nname n = v) /\
  (~ In v (get_all_node_names (wnet w)) -> get_object (wnet w) v = Err PlainException).
Proof.
  intros R. split; [|apply object_missing]. intros H. destruct (object_ok w R v H) as (i & n & E & Hn). exists i, n.
  split; [exact E|]. split; [apply Hn|]. exact (named w (structure_ok w R) v i n Hn).
Qed.

Theorem C56_get_nodes w l : reached w ->
  (incl l (get_all_node_names (wnet w)) ->
     exists os, get_nodes (wnet w) (Some l) = Ok os /\ map (obj_name (whp w)) os = l /\ incl os (get_all_nodes (wnet w))) /\
  (~ incl l (get_all_node_names (wnet w)) -> get_nodes (wnet w) (Some l) = Err PlainException).
Proof.
  intros R. split; [apply nodes_ok, R|]. intros N. destruct (not_incl_one l _ N) as (v & I & K). exact (nodes_missing w R l v I K).
Qed.

Theorem C56_get_children w v : reached w ->
  (In v (get_all_node_names (wnet w)) ->
     exists os, get_child_objects (wnet w) v = Ok os /\ NoDup os /\ incl os (get_all_nodes (wnet w)) /\
       forall i n, In i (get_all_nodes (wnet w)) -> nth_error (whp w) i = Some n -> (In i os <-> In v (nporder n))) /\
  (~ In v (get_all_node_names (wnet w)) -> get_child_objects (wnet w) v = Err KeyError).
Proof. intros R. split; [apply children_of, R|apply children_missing, R]. Qed.

(** The exact algorithms walk over [get_all_nodes]; the snapshot they are modelled
    on lists the nodes in that order. *)
Theorem C56_one_order w : reached w -> border (view w) = bnames (view w) /\ bnames (view w) = get_all_node_names (wnet w).
Proof. intros R. split; [apply view_order, R|apply view_names, structure_ok, R]. Qed.

Example C56_example : reached garden /\
  get_all_nodes (wnet garden) = [1; 2; 0] /\ get_all_node_names (wnet garden) = ["wet"; "sprinkler"; "weather"] /\
  number_of_nodes (wnet garden) = 3 /\
  get_nodes (wnet garden) (Some ["weather"; "wet"]) = Ok [0; 1] /\ get_nodes (wnet garden) (Some ["weather"; "rain"]) = Err PlainException /\
  get_child_objects (wnet garden) "weather" = Ok [1] /\ get_child_objects (wnet garden) "wet" = Ok [] /\
  get_child_objects (wnet garden) "rain" = Err KeyError.
Proof. split; [exact garden_reached|]. vm_compute. repeat split. Qed.

(** ** C57 *)
Theorem C57_clear w :
  let w' := fst (exec w Clear) in
  snd (exec w Clear) = Ok tt /\ get_all_nodes (wnet w') = [] /\ get_all_node_names (wnet w') = [] /\ number_of_nodes (wnet w') = 0 /\
  gedges (wnet w') = [] /\ whp w' = whp w /\
  (forall v, get_object (wnet w') v = Err PlainException /\ get_child_objects (wnet w') v = Err KeyError).
Proof. repeat split. Qed.

(** The doc string says that the name is removed; name and properties stay. *)
Theorem C57_name_refuted : exists w, reached w /\ bname (wnet (fst (exec w Clear))) = Some "garden" /\ bmeta (wnet (fst (exec w Clear))) <> [].
Proof.
  exists (fst (exec garden (Label (Some "garden") [Some "p"]))). split; [apply reached_call; [exact garden_reached|exact Logic.I]|].
  split; [vm_compute; reflexivity|vm_compute; discriminate].
Qed.

(** The nodes keep their parents: added again, they refer to nodes outside the
    network and its structure is inconsistent. *)
Theorem C57_nodes_keep_parents_refuted : exists w i, reached w /\
  let w' := fst (exec (fst (exec w Clear)) (AddNode i)) in
  snd (exec (fst (exec w Clear)) (AddNode i)) = Ok tt /\ ~ consistent w' /\
  get_all_node_names (wnet w') = ["wet"] /\ gedges (wnet w') = [] /\
  exists n, nth_error (whp w') i = Some n /\ nporder n = ["weather"; "sprinkler"].
Proof.
  exists garden, 1. split; [exact garden_reached|]. cbv zeta. split; [vm_compute; reflexivity|]. split.
  - intros C. set (w' := fst (exec (fst (exec garden Clear)) (AddNode 1))) in *.
    assert (H := co_parents _ C "wet" 1 (deref (whp w') 1) "weather"). vm_compute in H. destruct (proj1 (H (conj eq_refl eq_refl)) (or_introl eq_refl)).
  - split; [vm_compute; reflexivity|]. split; [vm_compute; reflexivity|]. eexists. split; [vm_compute; reflexivity|vm_compute; reflexivity].
Qed.

Example C57_example : reached garden /\ get_all_node_names (wnet garden) <> [] /\ gedges (wnet garden) <> [].
Proof. split; [exact garden_reached|]. split; vm_compute; discriminate. Qed.

(** ** C58 *)
(** What the generator yields, for every graph: no node twice, sources first, and
    exactly the nodes that no cycle leads to. *)
Theorem C58_yields ns es : graph ns es ->
  NoDup (fst (topological_sort ns es)) /\ sorted es (fst (topological_sort ns es)) /\
  forall v, In v (fst (topological_sort ns es)) <-> In v ns /\ ~ behind_cycle es v.
Proof. intros G. split; [apply sort_nodup, G|]. split; [apply sort_sorted, G|]. intros v. apply sort_yields, G. Qed.

Theorem C58_ends ns es : graph ns es ->
  (acyclic es -> snd (topological_sort ns es) = None /\ Permutation ns (fst (topological_sort ns es))) /\
  (~ acyclic es -> snd (topological_sort ns es) = Some NetworkXUnfeasible).
Proof. intros G. split; [apply sort_acyclic, G|apply sort_cyclic, G]. Qed.

Theorem C58_topological b : sampled_net b -> acyclic (bedges b) -> topological b (fst (topological_sort (border b) (bedges b))).
Proof. exact (sort_topological b). Qed.

Theorem C58_sample b g k ev : sampled_net b -> acyclic (bedges b) -> rng_ok g -> NoDup (dkeys ev) -> legal_ev b ev ->
  exists st k', get_sample_nx g k b ev = Ok (st, k') /\ complete b st /\ keeps ev st.
Proof.
  intros SN A RG ND L. rewrite (sample_acyclic b SN g k ev A). exact (sample_total b SN ev _ (sort_topological b SN A) g k RG ND L).
Qed.

Theorem C58_cyclic b g k ev t burnIn full n vs : sampled_net b -> ~ acyclic (bedges b) -> rng_ok g -> NoDup (dkeys ev) -> legal_ev b ev ->
  get_sample_nx g k b ev = Err NetworkXUnfeasible /\ mcmc_marginals_nx t burnIn full n g b vs ev = Err NetworkXUnfeasible.
Proof. intros SN A RG ND L. split; [apply sample_cyclic; assumption|apply marginals_cyclic; assumption]. Qed.

(** The theorems on MCMC (C27-C32, C47, C49-C53) hold for networkx's order. *)
Theorem C58_marginals b t burnIn full n g vs ev : sampled_net b -> acyclic (bedges b) ->
  exists order, topological b order /\ mcmc_marginals_nx t burnIn full n g b vs ev = mcmc_marginals t burnIn full n g b order vs ev.
Proof. intros SN A. exists (fst (topological_sort (border b) (bedges b))). split; [apply sort_topological; assumption|apply marginals_acyclic; assumption]. Qed.

Lemma garden_acyclic : acyclic (bedges (view garden)).
Proof.
  replace (bedges (view garden)) with [("weather", "wet"); ("sprinkler", "wet")] by (vm_compute; reflexivity).
  intros v L. destruct (leads_ends _ _ _ L) as [(x & A) (y & B)]. cbn in A, B.
  destruct A as [A|[A|[]]], B as [B|[B|[]]]; congruence.
Qed.

Lemma garden_nonneg : nonneg_bn (view garden).
Proof. apply nonnegb_ok. vm_compute. reflexivity. Qed.

Example C58_example : sampled_net (view garden) /\ acyclic (bedges (view garden)) /\
  topological_sort (border (view garden)) (bedges (view garden)) = (["weather"; "sprinkler"; "wet"], None).
Proof.
  split; [apply view_sampled; [exact garden_reached|exact garden_tidy|exact garden_nonneg]|]. split; [exact garden_acyclic|].
  vm_compute. reflexivity.
Qed.

(** A cycle of two nodes behind "s" and in front of "t". *)
Definition ring_ns : list string := ["s"; "a"; "b"; "t"].
Definition ring_es : list (string * string) := [("s", "a"); ("a", "b"); ("b", "a"); ("b", "t")].
Example C58_ring : graph ring_ns ring_es /\ ~ acyclic ring_es /\ topological_sort ring_ns ring_es = (["s"], Some NetworkXUnfeasible).
Proof.
  split; [split; [apply nodup_s_spec; reflexivity|split]|split; [|vm_compute; reflexivity]].
  - apply nodup_arcs_ok. reflexivity.
  - intros u v H. cbn in H. repeat (destruct H as [H|H]; [injection H as <- <-; cbn; auto 10|]). destruct H.
  - intros A. apply (A "a"). eapply leads_step; [right; left; reflexivity|]. apply leads_edge. right. right. left. reflexivity.
Qed.

(** ** C59 *)
(** Every call except [add_edge] keeps a network acyclic. *)
Theorem C59_other_calls w o : reached w -> within w o -> (forall u v, o <> AddEdge u v) ->
  acyclic (gedges (wnet w)) -> acyclic (gedges (wnet (fst (exec w o)))).
Proof. intros R. apply acyclic_exec, reached_inv, R. Qed.

(** [add_edge] keeps it so exactly when there is no path back. *)
Theorem C59_add_edge w u v : reached w -> within w (AddEdge u v) ->
  In u (get_all_node_names (wnet w)) -> In v (get_all_node_names (wnet w)) -> acyclic (gedges (wnet w)) ->
  snd (exec w (AddEdge u v)) = Ok tt /\
  (acyclic (gedges (wnet (fst (exec w (AddEdge u v))))) <-> u <> v /\ ~ leads (gedges (wnet w)) v u).
Proof.
  intros R A Iu Iv AC. assert (C := structure_ok w R). destruct (in_lookup w C u Iu) as (p & m & Hu). destruct (in_lookup w C v Iv) as (c & n & Hv).
  cbn [exec]. rewrite (add_edge_run w u v p m c n (reached_inv w R) Hu Hv A). split; [reflexivity|]. cbn. apply acyclic_new, AC.
Qed.

Definition circle_ops : list op :=
  [NewNode KDiscrete "a" tf; NewNode KDiscrete "b" tf; AddNode 0; AddNode 1; AddEdge "a" "b"; AddEdge "b" "a";
   SetCpd 0 false (mkArr [2; 2] [qq 1 2; qq 1 2; qq 1 2; qq 1 2]); SetCpd 1 false (mkArr [2; 2] [qq 1 2; qq 1 2; qq 1 2; qq 1 2])].
Definition circle : world := run start circle_ops.

Lemma circle_reached : reached circle.
Proof. apply reached_run; [apply reached_start|]. apply all_withinb_ok. vm_compute. reflexivity. Qed.

Lemma circle_sampled : sampled_net (view circle).
Proof. apply view_sampled; [exact circle_reached|apply tidyb_ok; vm_compute; reflexivity|apply nonnegb_ok; vm_compute; reflexivity]. Qed.

(** A cycle is closed without an exception; sampling from the network then fails. *)
Theorem C59_cycle_accepted_refuted : exists w u v, reached w /\ within w (AddEdge u v) /\ acyclic (gedges (wnet w)) /\
  snd (exec w (AddEdge u v)) = Ok tt /\ ~ acyclic (gedges (wnet (fst (exec w (AddEdge u v))))).
Proof.
  exists garden, "wet", "weather".
  assert (W : within garden (AddEdge "wet" "weather")). { cbn [within]. unfold edge. rewrite garden_edges. intros [H|[H|[]]]; discriminate H. }
  assert (AC : acyclic (gedges (wnet garden))) by exact garden_acyclic.
  split; [exact garden_reached|]. split; [exact W|]. split; [exact AC|].
  destruct (C59_add_edge garden "wet" "weather" garden_reached W) as [E I]; [vm_compute; auto|vm_compute; auto|exact AC|].
  split; [exact E|]. rewrite I. intros [_ N]. apply N. rewrite garden_edges. apply leads_edge. left. reflexivity.
Qed.

Theorem C59_sampling_fails_refuted : exists w, reached w /\ sampled_net (view w) /\
  forall g k, rng_ok g -> get_sample_nx g k (view w) [] = Err NetworkXUnfeasible.
Proof.
  exists circle. split; [exact circle_reached|]. split; [exact circle_sampled|]. intros g k G.
  apply sample_cyclic; [exact circle_sampled| |exact G|constructor|intros v x _ E; discriminate E].
  replace (bedges (view circle)) with [("a", "b"); ("b", "a")] by (vm_compute; reflexivity).
  intros A. apply (A "a"). eapply leads_step; [left; reflexivity|]. apply leads_edge. right. left. reflexivity.
Qed.

Example C59_example : reached garden /\ acyclic (gedges (wnet garden)) /\ within garden (AddEdge "weather" "sprinkler") /\
  "weather" <> "sprinkler" /\ ~ leads (gedges (wnet garden)) "sprinkler" "weather" /\
  within garden (ChangeName (ByName "weather") "sky").
Proof.
  split; [exact garden_reached|]. split; [exact garden_acyclic|]. split.
  { cbn [within]. unfold edge. rewrite garden_edges. intros [H|[H|[]]]; discriminate H. }
  split; [discriminate|]. split.
  - rewrite garden_edges. intros L. destruct (leads_ends _ _ _ L) as [_ (y & B)]. cbn in B. destruct B as [B|[B|[]]]; discriminate B.
  - split; [eexists; reflexivity|]. right. vm_compute. intros H. decompose [or] H; discriminate || contradiction.
Qed.

Print Assumptions C56_names.
Print Assumptions C56_get_node.
Print Assumptions C56_get_nodes.
Print Assumptions C56_get_children.
Print Assumptions C56_one_order.
Print Assumptions C57_clear.
Print Assumptions C57_name_refuted.
Print Assumptions C57_nodes_keep_parents_refuted.
Print Assumptions C58_yields.
Print Assumptions C58_ends.
Print Assumptions C58_topological.
Print Assumptions C58_sample.
Print Assumptions C58_cyclic.
Print Assumptions C58_marginals.
Print Assumptions C59_other_calls.
Print Assumptions C59_add_edge.
Print Assumptions C59_cycle_accepted_refuted.
Print Assumptions C59_sampling_fails_refuted.
