(** Properties C07 and C20-C26: nodes and networks. *)
From Verif Require Import Base BaseFacts NDArray Factor Exact Spec OrderSpec TreeSpec Node Network NetSpec NetFacts NetInv NetOps NetRename NetTop
  NetView NetTable NetFrame NetChecks Instances ExampleNets.

(** Example history: rain (object 0), wet (1) and sprinkler (2), with edges and
    tables; edges are removed and added again, a node is renamed, calls fail. *)
Definition garden_ops : list op :=
  [NewNode KDiscrete "rain" tf; NewNode KDiscrete "wet" ["y"; "n"]; NewNode KDiscrete "sprinkler" ["on"; "off"];
   AddNode 0; AddNode 1; AddNode 2; AddNode 1;
   AddEdge "sprinkler" "wet"; AddEdge "nobody" "wet"; AddEdge "rain" "wet"; RemoveEdge "sprinkler" "wet";
   ChangeName (ByName "rain") "weather"; ChangeValues (ByName "weather") ["sun"; "rain"; "snow"];
   AddEdge "sprinkler" "wet"; RemoveEdge "wet" "rain";
   SetCpd 0 false (mkArr [3] [qq 1 2; qq 1 3; qq 1 6]);
   SetCpd 2 false (mkArr [2] [qq 1 4; qq 3 4]);
   SetCpd 1 false (mkArr [2; 3] [qq 1 4; qq 3 4; 0%Qc; 0%Qc; 0%Qc; 0%Qc]);
   SetCpd 1 false (mkArr [2; 3; 2] [qq 9 10; qq 1 10; qq 1 1; qq 9 10; qq 1 1; qq 4 5;
                                    qq 1 10; qq 9 10; qq 0 1; qq 1 10; qq 0 1; qq 1 5])].
Definition garden : world := run start garden_ops.

Lemma garden_within : all_within start garden_ops.
Proof. apply all_withinb_ok. vm_compute. reflexivity. Qed.

Lemma garden_reached : reached garden.
Proof. apply reached_run; [apply reached_start|apply garden_within]. Qed.

Lemma garden_tidy : tidy garden.
Proof. apply tidyb_ok. vm_compute. reflexivity. Qed.

Lemma garden_edges : gedges (wnet garden) = [("weather", "wet"); ("sprinkler", "wet")].
Proof. vm_compute. reflexivity. Qed.

(** ** C20.  [consistent w]: node lookup, graph, parents dicts and parent orders
    agree.  Proved for all histories of calls within the contract [within]; the
    refutations show calls outside it that break the property. *)
Theorem C20_structure_partial w : reached w -> consistent w.
Proof. exact (structure_ok w). Qed.

Example C20_example : reached garden /\
  dkeys (lookup (wnet garden)) = ["wet"; "sprinkler"; "weather"] /\
  gedges (wnet garden) = [("weather", "wet"); ("sprinkler", "wet")] /\
  nporder (deref (whp garden) 1) = ["weather"; "sprinkler"].
Proof. split; [exact garden_reached|]. vm_compute. repeat split. Qed.

(** Adding an edge twice. *)
Definition twice_ops : list op :=
  [NewNode KDiscrete "a" tf; NewNode KDiscrete "b" tf; AddNode 0; AddNode 1; AddEdge "a" "b"; AddEdge "a" "b"].
Theorem C20_duplicate_edge_refuted : exists os, ~ consistent (run start os) /\
  exists n, nth_error (whp (run start os)) 1 = Some n /\ nporder n = ["a"; "a"] /\ gedges (wnet (run start os)) = [("a", "b")].
Proof.
  exists twice_ops. split.
  - intros C. assert (H := co_order _ C "b" 1 (deref (whp (run start twice_ops)) 1)).
    vm_compute in H. specialize (H (conj eq_refl eq_refl)). inversion H as [|? ? N _]. apply N. left. reflexivity.
  - eexists. split; [vm_compute; reflexivity|]. split; reflexivity.
Qed.

(** Removing a node and adding it again: it still lists its old parents. *)
Definition again_ops : list op :=
  [NewNode KDiscrete "a" tf; NewNode KDiscrete "b" tf; AddNode 0; AddNode 1; AddEdge "a" "b"; RemoveNode (ByName "b"); AddNode 1].
Theorem C20_readded_node_refuted : exists os, ~ consistent (run start os) /\
  exists n, holds (run start os) "b" 1 n /\ nporder n = ["a"] /\ gedges (wnet (run start os)) = [].
Proof.
  exists again_ops. split.
  - intros C. assert (H := co_parents _ C "b" 1 (deref (whp (run start again_ops)) 1) "a").
    vm_compute in H. destruct (proj1 (H (conj eq_refl eq_refl)) (or_introl eq_refl)).
  - eexists. split; [split; vm_compute; reflexivity|]. split; reflexivity.
Qed.

(** ** C21 *)
Theorem C21_shapes_partial w : reached w -> fitting w.
Proof. exact (shapes_ok w). Qed.

Theorem C21_set_cpd_accepts_partial w v i n int a : reached w -> holds w v i n ->
  (shape a = right_shape w n ->
     snd (exec w (SetCpd i int a)) = Ok tt /\
     nth_error (whp (fst (exec w (SetCpd i int a)))) i = Some (with_cpd n (TArr int a) true)) /\
  (shape a <> right_shape w n -> exec w (SetCpd i int a) = (w, Err ValueError)).
Proof. exact (set_cpd_accepts w v i n int a). Qed.

Example C21_example : reached garden /\ holds garden "wet" 1 (deref (whp garden) 1) /\
  right_shape garden (deref (whp garden) 1) = [2; 3; 2] /\ tshape (ncpd (deref (whp garden) 1)) = [2; 3; 2].
Proof. split; [exact garden_reached|]. split; [split; vm_compute; reflexivity|]. split; vm_compute; reflexivity. Qed.

(** A node that is removed and added again misses changes of its parents' values. *)
Definition stale_ops : list op :=
  [NewNode KDiscrete "a" tf; NewNode KDiscrete "b" tf; AddNode 0; AddNode 1; AddEdge "a" "b"; RemoveNode (ByName "b");
   ChangeValues (ByName "a") ["x"; "y"; "z"]; AddNode 1].
Theorem C21_readded_node_refuted : exists os n, ~ fitting (run start os) /\
  holds (run start os) "b" 1 n /\ tshape (ncpd n) = [2; 2] /\ nporder n = ["a"] /\
  parent_values (whp (run start os)) n "a" = Ok ["x"; "y"; "z"].
Proof.
  exists stale_ops, (deref (whp (run start stale_ops)) 1). split.
  - intros F. destruct (F "b" 1 (deref (whp (run start stale_ops)) 1)) as [_ H]; [split; vm_compute; reflexivity|].
    vm_compute in H. discriminate.
  - split; [split; vm_compute; reflexivity|]. split; [|split]; vm_compute; reflexivity.
Qed.

(** ** C22.  In any state, reachable or not, the edits write no other objects. *)
Theorem C22_other_nodes_unchanged w o j : edit o -> ~ touched w o j ->
  nth_error (whp (fst (exec w o))) j = nth_error (whp w) j.
Proof. exact (edits_frame w o j). Qed.

(** In reachable states: failing edits change nothing, and successful edits reset
    exactly the restructured nodes. *)
Theorem C22_edits_local_partial w o : reached w -> within w o -> edit o ->
  (snd (exec w o) <> Ok tt -> fst (exec w o) = w) /\
  forall j n, nth_error (whp w) j = Some n ->
    exists n', nth_error (whp (fst (exec w o))) j = Some n' /\
      (~ restructures w o j -> n' = n) /\
      (restructures w o j -> blank (fst (exec w o)) n' /\ nporder n' = order_after w o n /\
         nvalues n' = values_after w o j n /\ nname n' = nname n /\ nmeta n' = nmeta n).
Proof. exact (edits_local w o). Qed.

Example C22_example :
  let o := ChangeValues (ByName "weather") tf in
  reached garden /\ within garden o /\ edit o /\ snd (exec garden o) = Ok tt /\
  restructures garden o 0 /\ restructures garden o 1 /\ ~ restructures garden o 2 /\ ~ touched garden o 2 /\
  tshape (ncpd (deref (whp (fst (exec garden o))) 1)) = [2; 2; 2] /\
  deref (whp (fst (exec garden o))) 2 = deref (whp garden) 2 /\ nvalid (deref (whp garden) 2) = true.
Proof.
  cbv zeta. split; [exact garden_reached|]. split; [exact Logic.I|]. split; [exact Logic.I|].
  split; [vm_compute; reflexivity|].
  split; [split; [vm_compute; reflexivity|left; vm_compute; reflexivity]|].
  split; [split; [vm_compute; reflexivity|right; exists "wet"; split; [unfold edge; rewrite garden_edges; left; reflexivity|vm_compute; reflexivity]]|].
  assert (NT : ~ touched garden (ChangeValues (ByName "weather") tf) 2).
  { intros [X|(c & X & Y)]; [vm_compute in X; discriminate|].
    unfold edge in X. rewrite garden_edges in X. cbn [ref_name In] in X. destruct X as [X|[X|[]]]; [|discriminate X].
    injection X as <-. vm_compute in Y. discriminate Y. }
  split; [|split; [exact NT|split; [|split]; vm_compute; reflexivity]].
  intros [_ [X|(c & X & Y)]]; apply NT; [left; exact X|right; exists c; split; [exact X|]].
  apply (co_same _ (structure_ok _ garden_reached)), Y.
Qed.

(** ** C23 *)
Theorem C23_rename_preserves w s new i n : reached w -> holds w s i n -> s = new \/ ~ In new (dkeys (lookup (wnet w))) ->
  snd (exec w (ChangeName (ByName s) new)) = Ok tt /\
  let w' := fst (exec w (ChangeName (ByName s) new)) in
  Permutation (lookup (wnet w')) (map (fun p => (ren s new (fst p), snd p)) (lookup (wnet w))) /\
  (forall a b, edge w' a b <-> exists a0 b0, edge w a0 b0 /\ a = ren s new a0 /\ b = ren s new b0) /\
  (forall v j m, holds w v j m -> exists m', holds w' (ren s new v) j m' /\ nname m' = ren s new v /\
     nkind m' = nkind m /\ nvalues m' = nvalues m /\ ncpd m' = ncpd m /\ nvalid m' = nvalid m /\ nmeta m' = nmeta m /\
     nporder m' = map (ren s new) (nporder m)) /\
  forall st, incl (dkeys st) (dkeys (lookup (wnet w))) ->
    joint (view w') (rename_state s new st) = joint (view w) st.
Proof. exact (rename_keeps w s new i n). Qed.

Definition garden_state : dict string := [("wet", "y"); ("sprinkler", "off"); ("weather", "snow")].
Example C23_example : reached garden /\ holds garden "weather" 0 (deref (whp garden) 0) /\
  ~ In "sky" (dkeys (lookup (wnet garden))) /\ incl (dkeys garden_state) (dkeys (lookup (wnet garden))) /\
  joint (view garden) garden_state = qq 1 10 /\
  joint (view (fst (exec garden (ChangeName (ByName "weather") "sky")))) [("wet", "y"); ("sprinkler", "off"); ("sky", "snow")] = qq 1 10.
Proof.
  split; [exact garden_reached|]. split; [split; vm_compute; reflexivity|].
  split; [apply (proj1 (mem_nIn _ _)); vm_compute; reflexivity|]. split; [apply (proj1 (subset_spec _ _)); vm_compute; reflexivity|]. split; qc.
Qed.

(** ** C24.  Renaming to a name in use loses a node; naming the node by its object
    fails half-way.  (By name, to a free name: C20 and C23.) *)
Definition pair_ops : list op :=
  [NewNode KDiscrete "a" tf; NewNode KDiscrete "b" tf; AddNode 0; AddNode 1; AddEdge "a" "b"].
Theorem C24_collision_refuted : exists os s new, reached (run start os) /\
  let w := run start os in let w' := fst (exec w (ChangeName (ByName s) new)) in
  snd (exec w (ChangeName (ByName s) new)) = Ok tt /\
  length (lookup (wnet w)) = 2 /\ length (lookup (wnet w')) = 1 /\ ~ consistent w'.
Proof.
  exists pair_ops, "a", "b". split; [apply reached_run; [apply reached_start|apply all_withinb_ok; vm_compute; reflexivity]|].
  cbv zeta. split; [vm_compute; reflexivity|]. split; [vm_compute; reflexivity|]. split; [vm_compute; reflexivity|].
  set (w' := fst (exec (run start pair_ops) (ChangeName (ByName "a") "b"))). intros C.
  assert (H := co_parents _ C "b" 0 (deref (whp w') 0) "b"). vm_compute in H.
  destruct (proj2 (H (conj eq_refl eq_refl)) (or_introl eq_refl)).
Qed.

Theorem C24_by_object_refuted : exists os i new, reached (run start os) /\
  let w := run start os in let w' := fst (exec w (ChangeName (ByNode i) new)) in
  snd (exec w (ChangeName (ByNode i) new)) = Err KeyError /\
  length (ggraph (wnet w)) = 2 /\ length (ggraph (wnet w')) = 1 /\ ~ consistent w'.
Proof.
  exists pair_ops, 0, "c". split; [apply reached_run; [apply reached_start|apply all_withinb_ok; vm_compute; reflexivity]|].
  cbv zeta. split; [vm_compute; reflexivity|]. split; [vm_compute; reflexivity|]. split; [vm_compute; reflexivity|].
  set (w' := fst (exec (run start pair_ops) (ChangeName (ByNode 0) "c"))). intros C.
  assert (H := co_same _ C "a" 0). vm_compute in H. destruct H as [_ H]. specialize (H eq_refl). discriminate.
Qed.

Theorem C24_safe_arguments_partial w s new : reached w -> s = new \/ ~ In new (dkeys (lookup (wnet w))) ->
  let w' := fst (exec w (ChangeName (ByName s) new)) in
  consistent w' /\ length (lookup (wnet w')) = length (lookup (wnet w)) /\
  (~ In s (dkeys (lookup (wnet w))) -> exec w (ChangeName (ByName s) new) = (w, Err PlainException)).
Proof.
  intros R FR. cbv zeta. split; [|split].
  - apply structure_ok. apply reached_call; [exact R|]. split; [eexists; reflexivity|exact FR].
  - destruct (dget s (lookup (wnet w))) as [i|] eqn:D.
    + destruct (co_named w (structure_ok w R) s i D) as (n & Hn & _).
      destruct (rename_keeps w s new i n R (conj D Hn) FR) as (_ & P & _). apply Permutation_length in P. rewrite map_length in P. exact P.
    + cbn [exec]. unfold change_node_name. cbn [ref_name]. rewrite D. reflexivity.
  - intros NI. cbn [exec]. unfold change_node_name. cbn [ref_name]. rewrite (proj2 (dget_None _ _) NI). reflexivity.
Qed.

Example C24_example : reached garden /\ ~ In "sky" (dkeys (lookup (wnet garden))) /\ In "weather" (dkeys (lookup (wnet garden))) /\
  length (lookup (wnet garden)) = 3.
Proof.
  split; [exact garden_reached|]. split; [apply (proj1 (mem_nIn _ _)); vm_compute; reflexivity|]. split; [apply (proj1 (mem_In _ _)); vm_compute; reflexivity|vm_compute; reflexivity].
Qed.

(** ** C25 *)
Theorem C25_valid_flag_partial os i n : all_within start os -> nth_error (whp (run start os)) i = Some n ->
  (nvalid n = true <-> table_current start os i).
Proof. exact (valid_flag os i n). Qed.

Example C25_example : all_within start garden_ops /\
  map nvalid (whp garden) = [true; true; true] /\
  all_within start (garden_ops ++ [AddEdge "weather" "sprinkler"; SetProb 2 "on" (qq 1 2) []]) /\
  map nvalid (whp (run start (garden_ops ++ [AddEdge "weather" "sprinkler"; SetProb 2 "on" (qq 1 2) []]))) = [true; true; false].
Proof.
  split; [exact garden_within|]. split; [vm_compute; reflexivity|].
  split; [apply all_withinb_ok; vm_compute; reflexivity|vm_compute; reflexivity].
Qed.

(** A parent without values (a utility node) makes add_edge raise after the parent
    is listed; the flag stays set although the table lacks an axis. *)
Definition odd_ops : list op :=
  [NewNode KDiscrete "a" tf; NewNode KUtility "u" []; AddNode 0; AddNode 1;
   SetCpd 0 false (mkArr [2] [qq 1 2; qq 1 2]); AddEdge "u" "a"].
Theorem C25_utility_parent_refuted : exists os n, nth_error (whp (run start os)) 0 = Some n /\
  os = removelast os ++ [AddEdge "u" "a"] /\ snd (exec (run start (removelast os)) (AddEdge "u" "a")) = Err AttributeError /\
  nvalid n = true /\ nporder n = ["u"] /\ tshape (ncpd n) = [2] /\ edge (run start os) "u" "a".
Proof.
  exists odd_ops, (deref (whp (run start odd_ops)) 0).
  split; [vm_compute; reflexivity|]. split; [reflexivity|]. split; [vm_compute; reflexivity|]. split; [reflexivity|]. split; [reflexivity|]. split; [vm_compute; reflexivity|].
  apply (proj1 (edges_bool _ _)). vm_compute. reflexivity.
Qed.

(** ** C26.  For tables of floats. *)
Theorem C26_set_probability_partial w v i n x p pv a : reached w -> holds w v i n -> ncpd n = TArr false a ->
  In x (nvalues n) -> known w n pv ->
  exists b, exec w (SetProb i x p pv) = (mkW (list_set i (with_cpd n (TArr false b) (nvalid n)) (whp w)) (wnet w), Ok tt) /\
    shape b = shape a /\ real_array b /\
    let w' := fst (exec w (SetProb i x p pv)) in
    (forall st, legal w n st ->
       entry (snapshot_node (whp w') (with_cpd n (TArr false b) (nvalid n))) st =
       if String.eqb (look st v) x && matches pv st (nporder n) then p else entry (snapshot_node (whp w) n) st) /\
    exists r, get_probability (whp w') (with_cpd n (TArr false b) (nvalid n)) x (ones pv) = Ok r /\
      real_array r /\ Forall (fun z => z = p) (data r) /\
      shape r = filter (fun d => negb (Nat.eqb d 1))
                  (map (fun q => match dget q pv with Some _ => 1 | None => length (vals_of w q) end) (nporder n)).
Proof. exact (set_probability_writes w v i n x p pv a). Qed.

Theorem C26_unknown_values w v i n x p pv : reached w -> holds w v i n -> nvalues n <> [] ->
  ~ In x (nvalues n) \/ (exists q y, In q (nporder n) /\ dget q pv = Some y /\ ~ In y (vals_of w q)) ->
  exec w (SetProb i x p pv) = (w, Err ValueError).
Proof. exact (set_probability_rejects w v i n x p pv). Qed.

Example C26_example :
  let n := deref (whp garden) 1 in
  reached garden /\ holds garden "wet" 1 n /\ (exists a, ncpd n = TArr false a) /\ In "y" (nvalues n) /\
  known garden n [("weather", "snow")] /\ legal garden n garden_state /\
  entry (snapshot_node (whp (fst (exec garden (SetProb 1 "y" (qq 1 7) [("weather", "snow")])))) 
           (deref (whp (fst (exec garden (SetProb 1 "y" (qq 1 7) [("weather", "snow")])))) 1)) garden_state = qq 1 7 /\
  ~ In "maybe" (nvalues n) /\ ~ In "hail" (vals_of garden "weather").
Proof.
  cbv zeta. split; [exact garden_reached|]. split; [split; vm_compute; reflexivity|]. split; [eexists; vm_compute; reflexivity|].
  split; [apply (proj1 (mem_In _ _)); vm_compute; reflexivity|].
  split.
  { intros q y Iq D. change (nporder (deref (whp garden) 1)) with ["weather"; "sprinkler"] in Iq.
    destruct Iq as [<-|[<-|[]]]; cbn in D; [|discriminate D]. injection D as <-. apply (proj1 (mem_In _ _)). vm_compute. reflexivity. }
  split.
  { split; [apply (proj1 (mem_In _ _)); vm_compute; reflexivity|]. intros q Iq. change (nporder (deref (whp garden) 1)) with ["weather"; "sprinkler"] in Iq.
    destruct Iq as [<-|[<-|[]]]; apply (proj1 (mem_In _ _)); vm_compute; reflexivity. }
  split; [qc|]. split; apply (proj1 (mem_nIn _ _)); vm_compute; reflexivity.
Qed.

(** Tables given as integers: the fraction is cut off. *)
Definition int_ops : list op :=
  [NewNode KDiscrete "a" tf; AddNode 0; SetCpd 0 true (mkArr [2] [1%Qc; 0%Qc]); SetProb 0 "t" (qq 1 2) []].
Theorem C26_integer_table_refuted : exists os n, all_within start os /\ last os Clear = SetProb 0 "t" (qq 1 2) [] /\
  nth_error (whp (run start os)) 0 = Some n /\
  get_probability (whp (run start os)) n "t" [] = Ok (scalar 0%Qc).
Proof.
  exists int_ops, (deref (whp (run start int_ops)) 0). split; [apply all_withinb_ok; vm_compute; reflexivity|]. split; [reflexivity|].
  split; [vm_compute; reflexivity|]. vm_compute. reflexivity.
Qed.

(** ** C07 *)
Theorem C07_from_node w v i n : reached w -> tidy w -> holds w v i n ->
  let f := from_node (snapshot_node (whp w) n) in
  vorder f = v :: nporder n /\
  forall st, legal w n st -> (forall q, In q (nporder n) -> In q (dkeys st)) ->
    get_probability (whp w) n (look st v) (ones st) = Ok (scalar (potential_at f st)).
Proof. exact (from_node_reports w v i n). Qed.

Example C07_example :
  let n := deref (whp garden) 1 in
  reached garden /\ tidy garden /\ holds garden "wet" 1 n /\ legal garden n garden_state /\
  (forall q, In q (nporder n) -> In q (dkeys garden_state)) /\
  potential_at (from_node (snapshot_node (whp garden) n)) garden_state = qq 4 5.
Proof.
  cbv zeta. split; [exact garden_reached|]. split; [exact garden_tidy|]. split; [split; vm_compute; reflexivity|].
  split; [exact (proj1 (proj2 (proj2 (proj2 (proj2 (proj2 C26_example))))))|].
  split; [|qc]. intros q Iq. change (nporder (deref (whp garden) 1)) with ["weather"; "sprinkler"] in Iq.
  destruct Iq as [<-|[<-|[]]]; apply (proj1 (mem_In _ _)); vm_compute; reflexivity.
Qed.

(** ** The networks the inference theorems speak about are the reachable ones:
    the snapshot of a reachable network whose nodes have proper value lists and
    that has no self-loop meets their hypotheses. *)
Theorem C20_inference_view w : reached w -> tidy w -> wf_bn (view w) /\ wf_graph (view w) /\ edges_match (view w).
Proof. exact (view_wf w). Qed.

Example C20_inference_view_example : reached garden /\ tidy garden /\ length (bnodes (view garden)) = 3.
Proof. split; [exact garden_reached|]. split; [exact garden_tidy|vm_compute; reflexivity]. Qed.

Print Assumptions C20_structure_partial.
Print Assumptions C20_duplicate_edge_refuted.
Print Assumptions C20_readded_node_refuted.
Print Assumptions C21_shapes_partial.
Print Assumptions C21_set_cpd_accepts_partial.
Print Assumptions C21_readded_node_refuted.
Print Assumptions C22_other_nodes_unchanged.
Print Assumptions C22_edits_local_partial.
Print Assumptions C23_rename_preserves.
Print Assumptions C24_collision_refuted.
Print Assumptions C24_by_object_refuted.
Print Assumptions C24_safe_arguments_partial.
Print Assumptions C25_valid_flag_partial.
Print Assumptions C25_utility_parent_refuted.
Print Assumptions C26_set_probability_partial.
Print Assumptions C26_unknown_values.
Print Assumptions C26_integer_table_refuted.
Print Assumptions C07_from_node.
Print Assumptions C20_inference_view.
