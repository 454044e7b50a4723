(** PRIMO's own unit tests (primo2/tests), replayed on the model: nodes, networks
    and factors.  They check the model against the expectations the authors of
    the code wrote down.  Tests about Python objects of a wrong type and about
    message texts are left out. *)
From Verif Require Import Base BaseFacts NDArray Node Network NetSpec Factor Exact Order Sampling Decision Instances ExampleNets.

Global Existing Instance listing_order.

Definition nat_list_eqb (a b : list nat) : bool := if list_eq_dec Nat.eq_dec a b then true else false.
Definition str_list_eqb (a b : list string) : bool := if list_eq_dec string_dec a b then true else false.
(** [assert_array_equal] *)
Definition same_arr (a : ndarray) (sh : list nat) (l : list Qc) : bool := nat_list_eqb (shape a) sh && qlist_eqb (data a) l.
Definition same (r : res ndarray) (sh : list nat) (l : list Qc) : bool :=
  match r with Ok a => same_arr a sh l | Err _ => false end.
(** [assert_array_almost_equal]: 1.5e-6. *)
Definition near (x y : Qc) : bool := qleb (x - y)%Qc (qq 3 2000000) && qleb (y - x)%Qc (qq 3 2000000).
Fixpoint near_list (a b : list Qc) : bool :=
  match a, b with
  | [], [] => true
  | x :: a', y :: b' => near x y && near_list a' b'
  | _, _ => false
  end.
Definition close (r : res ndarray) (sh : list nat) (l : list Qc) : bool :=
  match r with Ok a => nat_list_eqb (shape a) sh && near_list (data a) l | Err _ => false end.
Definition num_is (r : res Qc) (q : Qc) : bool := match r with Ok x => qeqb x q | Err _ => false end.
Definition d100 (n : Z) : Qc := qq n 100.

Definition TF := ["True"; "False"].
Definition disc (v : string) (vs : list string) := new_node KDiscrete v vs.
Definition parents (h : heap) (ps : list (oid * oid)) : heap := fold_left (fun h p => fst (add_parent h (fst p) (snd p))) ps h.
Definition at_ (h : heap) (i : oid) : node := deref h i.
Definition put_cpd (h : heap) (i : oid) (a : ndarray) : heap :=
  match set_cpd (at_ h i) false a with Ok n => list_set i n h | Err _ => [] end.
Definition put_prob (h : heap) (i : oid) (x : string) (q : Qc) (pv : dict string) : heap :=
  match set_probability h (at_ h i) x q pv with Ok n => list_set i n h | Err _ => [] end.

(** ** Node_test.py *)
(** test_set_cpd, test_set_cpd_invalid, test_set_invalid_cpd_parents (76-97) *)
Example t_set_cpd : match set_cpd (disc "Node1" ["Value1"; "Value2"]) false (mkArr [2] [d100 20; d100 80]) with Ok n => nvalid n | _ => false end = true.
Proof. reflexivity. Qed.
Example t_set_cpd_invalid : set_cpd (disc "Node1" ["Value1"; "Value2"; "Value3"]) false (mkArr [2] [d100 20; d100 80]) = Err ValueError.
Proof. reflexivity. Qed.

Definition n12 : heap := [disc "Node1" ["Value1"; "Value2"]; disc "Node2" ["Value3"; "Value4"; "Value5"]; disc "Node3" ["Value6"; "Value7"]].
Definition pair12 : heap := parents n12 [(0, 1)].
Example t_set_invalid_cpd_parents :
  set_cpd (at_ pair12 0) false (mkArr [3; 2] (map d100 [20; 30; 40; 80; 70; 60]%Z)) = Err ValueError.
Proof. reflexivity. Qed.
(** test_set_cpd_two_parents (99-107) *)
Example t_set_cpd_two_parents :
  nvalid (at_ (put_cpd (parents n12 [(0, 1); (0, 2)]) 0 (mkArr [2; 3; 2] (map d100 [20;40;30;60;40;50;80;60;70;40;60;50]%Z))) 0) = true.
Proof. reflexivity. Qed.
(** test_set_values, test_set_values_with_parent (109-123) *)
Example t_set_values : let h := fst (set_values [disc "Node1" TF] 0 ["Value1"; "Value2"; "Value3"]) in
  (tshape (ncpd (at_ h 0)), nvalues (at_ h 0), nvalid (at_ h 0)) = ([3], ["Value1"; "Value2"; "Value3"], false).
Proof. reflexivity. Qed.
Example t_set_values_with_parent :
  let h := fst (set_values (parents [disc "Node1" TF; disc "Node2" TF] [(0, 1)]) 0 ["Value1"; "Value2"; "Value3"]) in
  (tshape (ncpd (at_ h 0)), nvalues (at_ h 0), nvalid (at_ h 0)) = ([3; 2], ["Value1"; "Value2"; "Value3"], false).
Proof. reflexivity. Qed.
(** test_add_parent, test_remove_parent (125-141) *)
Definition cpd23 := mkArr [2; 3] (map d100 [20; 30; 40; 80; 70; 60]%Z).
Definition set12 : heap := put_cpd pair12 0 cpd23.
Example t_add_parent : (nvalid (at_ pair12 0), nvalid (at_ set12 0)) = (false, true).
Proof. reflexivity. Qed.
Example t_remove_parent : nvalid (at_ (fst (remove_parent set12 0 1)) 0) = false.
Proof. reflexivity. Qed.
(** test_set_probability and its variants (143-188) *)
Example t_set_probability : same (let h := put_prob [disc "Node1" TF] 0 "True" (d100 20) [] in get_probability h (at_ h 0) "True" []) [] [d100 20] = true.
Proof. vm_compute. reflexivity. Qed.
Definition two_tf : heap := parents [disc "Node1" TF; disc "Node2" TF] [(1, 0)].
Example t_set_probability_with_parents :
  let h := put_prob two_tf 1 "False" (d100 40) [("Node1", "True")] in
  same (get_probability h (at_ h 1) "False" [("Node1", Many ["True"])]) [] [d100 40] &&
  same_arr (tarr (ncpd (at_ h 1))) [2; 2] (map d100 [0; 0; 40; 0]%Z) = true.
Proof. vm_compute. reflexivity. Qed.
Example t_set_probability_with_underspecified_parents :
  let h := put_prob two_tf 1 "True" (d100 20) [] in
  same (get_probability h (at_ h 1) "True" []) [2] [d100 20; d100 20] &&
  same_arr (tarr (ncpd (at_ h 1))) [2; 2] (map d100 [20; 20; 0; 0]%Z) = true.
Proof. vm_compute. reflexivity. Qed.
Example t_set_probability_with_multiple_parents :
  let h0 := parents [disc "Node1" TF; disc "Node2" TF; disc "Node3" TF] [(2, 0); (2, 1)] in
  let h1 := put_prob h0 2 "True" (d100 50) [("Node1", "False"); ("Node2", "True")] in
  let h2 := put_prob h1 2 "False" (d100 70) [("Node2", "False")] in
  same_arr (tarr (ncpd (at_ h1 2))) [2; 2; 2] (map d100 [0; 0; 50; 0; 0; 0; 0; 0]%Z) &&
  same_arr (tarr (ncpd (at_ h2 2))) [2; 2; 2] (map d100 [0; 0; 50; 0; 0; 70; 0; 70]%Z) = true.
Proof. vm_compute. reflexivity. Qed.
Example t_set_probability_error : set_probability two_tf (at_ two_tf 1) "False" (d100 40) [("Node1", "NotThere")] = Err ValueError.
Proof. reflexivity. Qed.
Example t_set_probability_unknown_value : set_probability [disc "Node1" TF] (disc "Node1" TF) "NotThere" (d100 20) [] = Err ValueError.
Proof. reflexivity. Qed.
(** test_get_single_probability (190-249) *)
Example t_get_single_probability_with_parent :
  num_is (single_probability set12 (at_ set12 0) "Value1" [("Node2", "Value4")]) (d100 30) &&
  same (get_probability set12 (at_ set12 0) "Value1" []) [3] (map d100 [20; 30; 40]%Z) = true.
Proof. vm_compute. reflexivity. Qed.
Definition three : heap := [disc "sprinkler" TF; disc "rain" TF; disc "wet_grass" TF].
Definition wet1 : heap := put_cpd (parents three [(2, 0); (2, 1)]) 2 (mkArr [2; 2; 2] (map d100 [95; 10; 80; 0; 5; 90; 20; 100]%Z)).
Definition wet2 : heap := put_cpd (parents three [(2, 1); (2, 0)]) 2 (mkArr [2; 2; 2] (map d100 [95; 80; 10; 0; 5; 20; 90; 100]%Z)).
Example t_get_single_probability_orders : forallb (fun h =>
    num_is (single_probability h (at_ h 2) "False" [("rain", "True"); ("sprinkler", "False")]) (d100 20) &&
    num_is (single_probability h (at_ h 2) "True" [("rain", "False"); ("sprinkler", "True")]) (d100 10) &&
    same (get_probability h (at_ h 2) "False" [("rain", Many ["True"]); ("sprinkler", Many ["False"])]) [] [d100 20] &&
    same (get_probability h (at_ h 2) "True" [("rain", Many ["False"]); ("sprinkler", Many ["True"])]) [] [d100 10]) [wet1; wet2] = true.
Proof. vm_compute. reflexivity. Qed.
Example t_get_single_probability_error :
  single_probability pair12 (at_ pair12 0) "Value3" [] = Err ValueError /\
  single_probability pair12 (at_ pair12 0) "Value1" [("Node2", "Value6")] = Err ValueError /\
  single_probability pair12 (at_ pair12 0) "Value1" [] = Err KeyError.
Proof. repeat split. Qed.
(** test_get_probability_with_parent, _error, _multiple_parents, _single_parent_value (251-336) *)
Example t_get_probability_with_parent :
  same (get_probability set12 (at_ set12 0) "Value1" [("Node2", Many ["Value4"])]) [] [d100 30] &&
  same (get_probability set12 (at_ set12 0) "Value1" [("Node2", Many ["Value3"; "Value5"])]) [2] [d100 20; d100 40] &&
  same (get_probability set12 (at_ set12 0) "Value1" [("Node2", One "Value4")]) [] [d100 30] = true.
Proof. vm_compute. reflexivity. Qed.
Example t_get_probability_error :
  get_probability pair12 (at_ pair12 0) "Value3" [] = Err ValueError /\
  get_probability pair12 (at_ pair12 0) "Value1" [("Node2", Many ["Value6"])] = Err ValueError /\
  get_probability set12 (at_ set12 0) "Value1" [("Node2", One "Value6")] = Err ValueError.
Proof. repeat split. Qed.
Example t_get_probability_multiple_parents :
  let h := put_cpd (parents three [(2, 0); (2, 1)]) 2 (mkArr [2; 2; 2] (map d100 [95; 10; 80; 0; 50; 90; 20; 100]%Z)) in
  same (get_probability h (at_ h 2) "True" [("sprinkler", Many TF); ("rain", Many TF)]) [2; 2] (map d100 [95; 10; 80; 0]%Z) = true.
Proof. vm_compute. reflexivity. Qed.
(** test_get_markov_prob (373-399) *)
Definition markov_heap : heap := put_cpd set12 1 (mkArr [3] (map d100 [30; 50; 20]%Z)).
Definition sn (h : heap) (i : oid) : dnode := snapshot_node h (at_ h i).
Example t_get_markov_prob :
  num_is (get_markov_prob (sn markov_heap 0) "Value1" [] [("Node2", "Value4")] true) (d100 30) &&
  num_is (get_markov_prob (sn markov_heap 1) "Value5" [sn markov_heap 0] [("Node1", "Value2")] true) (d100 20) &&
  num_is (get_markov_prob (sn markov_heap 1) "Value5" [sn markov_heap 0] [("Node1", "Value2"); ("Node2", "Value5")] false) (d100 12) = true.
Proof. vm_compute. reflexivity. Qed.
(** UtilityNode (406-472) *)
Definition util (v : string) := new_node KUtility v [].
Definition ut3 : heap := parents [util "Node1"; disc "Node2" ["Value3"; "Value4"; "Value5"]] [(0, 1)].
Definition put_utils (h : heap) (i : oid) (int : bool) (a : ndarray) : heap :=
  match set_utilities (at_ h i) int a with Ok n => list_set i n h | Err _ => [] end.
Definition ut3' : heap := put_utils ut3 0 true (mkArr [3] [qq 5 1; qq 10 1; qq 35 1]).
Example t_get_utility :
  num_is (get_utility ut3' (at_ ut3' 0) [("Node2", "Value4")]) (qq 10 1) = true /\
  get_utility ut3' (at_ ut3' 0) [("Node2", "Value6")] = Err ValueError /\
  get_utility ut3 (at_ ut3 0) [("Node2", "Value6")] = Err ValueError.
Proof. repeat split. Qed.
Example t_get_utility_multiple_parents :
  let h := put_utils (parents [util "wet_grass"; disc "sprinkler" TF; disc "rain" TF] [(0, 1); (0, 2)]) 0 true (mkArr [2; 2] [qq 10 1; qq 20 1; qq 100 1; qq 5 1]) in
  num_is (get_utility h (at_ h 0) [("sprinkler", "True"); ("rain", "False")]) (qq 20 1) = true.
Proof. vm_compute. reflexivity. Qed.
Example t_set_utility :
  match set_utility ut3 (at_ ut3 0) (qq 100 1) [("Node2", "Value3")] with
  | Ok n => num_is (get_utility (list_set 0 n ut3) n [("Node2", "Value3")]) (qq 100 1)
  | Err _ => false end = true /\
  set_utility ut3 (at_ ut3 0) (qq 100 1) [("Node2", "Value6")] = Err ValueError.
Proof. split; vm_compute; reflexivity. Qed.

(** ** Network_test.py *)
(** test_add_node_same_name (42-54) *)
Definition lens (os : list op) : list nat := map (fun k => length (ggraph (wnet (run start (firstn k os))))) (seq 0 (S (length os))).
Example t_add_node_same_name :
  lens [NewNode KBase "Node1" []; NewNode KBase "Node2" []; NewNode KBase "Node1" []; AddNode 0; AddNode 2; AddNode 1] = [0; 0; 0; 0; 1; 1; 2] /\
  snd (exec (run start [NewNode KBase "Node1" []; NewNode KBase "Node2" []; NewNode KBase "Node1" []; AddNode 0]) (AddNode 2)) = Err ValueError.
Proof. split; reflexivity. Qed.
(** test_change_node_values_of_parent (56-66) *)
Example t_change_node_values_of_parent :
  let w1 := run start [NewNode KDiscrete "Node1" TF; NewNode KDiscrete "Node2" TF; AddNode 0; AddNode 1; AddEdge "Node2" "Node1"] in
  let w2 := fst (exec w1 (ChangeValues (ByNode 1) ["Value1"; "Value2"; "Value3"])) in
  (tshape (ncpd (at_ (whp w1) 0)), nvalues (at_ (whp w2) 1), nvalid (at_ (whp w2) 0), tshape (ncpd (at_ (whp w2) 0)))
  = ([2; 2], ["Value1"; "Value2"; "Value3"], false, [2; 3]).
Proof. reflexivity. Qed.
(** test_change_node_name, test_change_node_name_twice (69-117) *)
Definition named : world := run start [NewNode KDiscrete "Node1" TF; NewNode KDiscrete "Node2" TF; NewNode KDiscrete "Node3" TF;
  AddNode 0; AddNode 1; AddNode 2; AddEdge "Node2" "Node1"; AddEdge "Node3" "Node2"].
Definition renamed : world := fst (exec named (ChangeName (ByName "Node2") "NewName")).
Definition renamed2 : world := fst (exec renamed (ChangeName (ByName "NewName") "2ndNewName")).
Example t_change_node_name :
  (nname (at_ (whp renamed) 1), dget "Node2" (lookup (wnet renamed)), dget "NewName" (lookup (wnet renamed)), nporder (at_ (whp renamed) 0),
   dmem "NewName" (ggraph (wnet renamed)), succs (wnet renamed) "NewName", preds (wnet renamed) "NewName", succs (wnet renamed) "Node3")
  = ("NewName", None, Some 1, ["NewName"], true, ["Node1"], ["Node3"], ["NewName"]).
Proof. reflexivity. Qed.
Example t_change_node_name_twice :
  (nname (at_ (whp renamed2) 1), dget "Node2" (lookup (wnet renamed2)), dget "NewName" (lookup (wnet renamed2))) = ("2ndNewName", None, None).
Proof. reflexivity. Qed.

(** ** Factor_test.py *)
Definition fheap : heap :=
  let h := parents [disc "Node1" TF; disc "Node2" ["ValueA"; "ValueB"; "ValueC"]; disc "Node3" ["High"; "Low"]; util "gains"] [(1, 0); (3, 2)] in
  put_utils (put_cpd (put_cpd (put_cpd h 0 (mkArr [2] [d100 30; d100 70])) 1 (mkArr [3; 2] (map d100 [20; 40; 40; 10; 40; 50]%Z))) 2
    (mkArr [2] [d100 80; d100 20])) 3 true (mkArr [2] [qq 100 1; qq 10 1]).
Definition F (i : oid) : factor := from_node (sn fheap i).
Definition table_of (r : res factor) : res ndarray := let* f := r in Ok (pot f).
(** test_create_from_* (50-89) *)
Example t_from_node : same_arr (pot (F 0)) [2] [d100 30; d100 70] && fcontains "Node1" (F 0) && fcontains "Node1" (F 1) && fcontains "Node2" (F 1) &&
  same_arr (pot (F 1)) [3; 2] (map d100 [20; 40; 40; 10; 40; 50]%Z) = true.
Proof. vm_compute. reflexivity. Qed.
Example t_from_utility_node : match utility_factor fheap (at_ fheap 3) with
  | Ok f => str_list_eqb (vorder f) ["Node3"] && same_arr (pot f) [2] [qq 100 1; qq 10 1] | Err _ => false end = true.
Proof. vm_compute. reflexivity. Qed.
Example t_from_samples : match from_samples [[("A", "True"); ("B", "True")]; [("A", "True"); ("B", "False")]; [("A", "False"); ("B", "False")]; [("A", "True"); ("B", "True")]]
    [("A", TF); ("B", TF)] with
  | Ok f => same (get_potential f [("A", ["True"]); ("B", ["True"])]) [] [qq 1 2] && same (get_potential f [("A", ["False"]); ("B", ["True"])]) [] [0%Qc] &&
            same (get_potential f [("A", ["True"]); ("B", ["False"])]) [] [qq 1 4] && same (get_potential f [("A", ["False"]); ("B", ["False"])]) [] [qq 1 4]
  | Err _ => false end = true.
Proof. vm_compute. reflexivity. Qed.
(** test_as_evidence (91-101) *)
Example t_as_evidence :
  same (table_of (as_evidence "E" TF (Hard "True") None)) [2] [1%Qc; 0%Qc] && same (table_of (as_evidence "E" TF (Soft [d100 80; d100 20]) None)) [2] [d100 80; d100 20] = true
  /\ as_evidence "E" TF (Hard "NotThere") None = Err ValueError /\ as_evidence "E" TF (Soft [d100 10; d100 20; d100 30]) None = Err ValueError.
Proof. split; [vm_compute; reflexivity|split; reflexivity]. Qed.
(** test_invert, test_division_* (104-139, 186-202) *)
Example t_invert : same (table_of (finvert (F 0))) [2] [qq 10 3; qq 10 7] = true.
Proof. vm_compute. reflexivity. Qed.
Example t_division :
  same (table_of (fdiv (F 0) (trivial 1))) [2] [d100 30; d100 70] && same (table_of (fdiv (F 1) (F 1))) [3; 2] (repeat 1%Qc 6) &&
  same (table_of (fdiv (F 1) (mkF (mkArr [3; 2] (map d100 [0; 40; 40; 10; 40; 50]%Z)) (vorder (F 1)) (fvals (F 1))))) [3; 2] (0%Qc :: repeat 1%Qc 5) = true.
Proof. vm_compute. reflexivity. Qed.
Example t_division_different_vars : fdiv (F 0) (F 1) = Err ValueError.
Proof. reflexivity. Qed.
Example t_division_partial_divisor :
  same (table_of (fdiv (mkF (mkArr [3; 2] (map d100 [50; 20; 0; 0; 30; 45]%Z)) ["a"; "b"] [("a", ["a1"; "a2"; "a3"]); ("b", ["b1"; "b2"])])
                       (mkF (mkArr [3] (map d100 [80; 0; 60]%Z)) ["a"] [("a", ["a1"; "a2"; "a3"])]))) [3; 2]
       (map (fun n => qq n 1000) [625; 250; 0; 0; 500; 750]%Z) = true.
Proof. vm_compute. reflexivity. Qed.
(** test_multiplication_* (141-184, 204-255) *)
Example t_multiplication_with_trivial :
  same (table_of (fmul (trivial 1) (F 0))) [2] [d100 30; d100 70] && same (table_of (fmul (F 0) (trivial 1))) [2] [d100 30; d100 70] = true.
Proof. vm_compute. reflexivity. Qed.
Example t_multiplication_conditionals : match fmul (F 0) (F 1) with
  | Ok f => same_arr (pot f) [2; 3] (map d100 [6; 12; 12; 28; 7; 35]%Z) && fcontains "Node1" f && fcontains "Node2" f
  | Err _ => false end = true.
Proof. vm_compute. reflexivity. Qed.
Example t_multiplication_error :
  let h := put_cpd (put_cpd (parents [disc "wet_grass" TF; disc "sprinkler" TF; disc "rain" TF; disc "winter" TF] [(0, 1); (0, 2); (1, 3)])
             1 (mkArr [2; 2] (map d100 [20; 75; 80; 25]%Z))) 0 (mkArr [2; 2; 2] (map d100 [95; 10; 80; 0; 5; 90; 20; 100]%Z)) in
  close (table_of (let* e := as_evidence "wet_grass" TF (Hard "False") None in let* p := fmul (from_node (sn h 0)) e in
                   let* m := marginalize p ["wet_grass"] in fmul (from_node (sn h 1)) m)) [2; 2; 2]
        (map (fun n => qq n 10000) [100; 1800; 375; 6750; 1600; 8000; 500; 2500]%Z) = true.
Proof. vm_compute. reflexivity. Qed.
Example t_multiplication_unrelated : match fmul (F 1) (F 2) with
  | Ok f => same_arr (pot f) [3; 2; 2] (map d100 [16; 4; 32; 8; 32; 8; 8; 2; 32; 8; 40; 10]%Z) && mem "Node2" (vorder f) && mem "Node3" (vorder f)
  | Err _ => false end = true.
Proof. vm_compute. reflexivity. Qed.
(** test_marginalisation, _multiple (257-289) *)
Example t_marginalisation : match (let* f := fmul (F 0) (F 1) in marginalize f ["Node1"]) with
  | Ok f => same_arr (pot f) [3] (map d100 [34; 19; 47]%Z) && negb (fcontains "Node1" f) | Err _ => false end = true.
Proof. vm_compute. reflexivity. Qed.
Example t_marginalisation_multiple : same (table_of (let* f := fmul (F 0) (F 1) in marginalize f ["Node1"; "Node2"])) [] [1%Qc] = true.
Proof. vm_compute. reflexivity. Qed.
(** test_get_potential, test_normalize (294-327) *)
Example t_get_potential :
  same (get_potential (F 0) []) [2] [d100 30; d100 70] && same (get_potential (F 1) [("Node1", ["False"])]) [3] (map d100 [40; 10; 50]%Z) = true
  /\ get_potential (F 1) [("Node1", ["False"]); ("Node2", ["ValueNotThere"])] = Err ValueError.
Proof. split; [vm_compute; reflexivity|reflexivity]. Qed.
Example t_normalize : qeqb (asum (pot (normalize (mkF (amap (fun x => x * qq 2 1)%Qc (pot (F 1))) (vorder (F 1)) (fvals (F 1)))))) 1%Qc = true.
Proof. vm_compute. reflexivity. Qed.
(** test_joint_factor_* (330-349); line 345 of the last test assigns an attribute
    instead of calling the method, so the node keeps its initial table. *)
Definition both (r : res jfactor) (f : ndarray -> ndarray -> bool) : bool := match r with Ok (p, u) => f (pot p) (pot u) | Err _ => false end.
Example t_joint_factor :
  both (joint_factor fheap (at_ fheap 1)) (fun p u => same_arr p [3; 2] (map d100 [20; 40; 40; 10; 40; 50]%Z) && same_arr u [3; 2] (repeat 0%Qc 6)) &&
  both (joint_factor [] (new_node KDecision "dNode" ["yes"; "no"])) (fun p u => same_arr p [2] (repeat 0%Qc 2) && same_arr u [2] (repeat 0%Qc 2)) &&
  both (joint_factor [] (util "uNode")) (fun p u => same_arr p [] [1%Qc] && same_arr u [] [1%Qc]) = true.
Proof. vm_compute. reflexivity. Qed.
