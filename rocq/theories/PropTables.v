(** C66: the tables that variable elimination makes. *)
From Verif Require Import Base BaseFacts NDArray Factor FactorFacts Exact Order OrderProof OrderSpec Spec SpecFacts SepSpec JoinTree TreeSpec JTDefault JTPolytree Tables TablesSpec TablesProof TablesTop
  FactorProofs Checks ExampleNets Instances PropVE PropTree.

(** Keeping the record does not change what the functions return. *)
Theorem C66_same_program {SO : SetOrder} b Q ev o :
  snd (naive_log b Q ev) = naive_marginals b Q ev /\ snd (bucket_log b Q ev o) = snd (bucket_marginals b Q ev o).
Proof. exact (conj (naive_erase b Q ev) (bucket_erase b Q ev o)). Qed.

(** [naive_marginals] makes the table of the joint distribution. *)
Theorem C66_naive {SO : SetOrder} b Q ev : wf_bn b -> ev_ok b ev -> bnodes b <> [] ->
  exists h, In (Times h) (fst (naive_log b Q ev)) /\ Permutation (vorder h) (bnames b) /\ length (data (pot h)) = entries b (bnames b).
Proof. intros WB. exact (naive_joint b WB Q ev). Qed.

(** [bucket_marginals] sums out the other variables in the given order, each once, and the
    table for [v] has exactly the variables of the cluster of [v]. *)
Theorem C66_sums {SO : SetOrder} b Q ev o :
  wf_bn b -> ev_ok b ev -> incl (dkeys ev) (bnames b) -> NoDup Q -> incl Q (bnames b) -> Permutation (bnames b) o ->
  let l := fst (bucket_log b Q ev o) in
  map fst (sums l) = fronts Q o /\
  forall v f, In (v, f) (sums l) -> exists o1 o2, fronts Q o = o1 ++ v :: o2 /\ NoDup (vorder f) /\
    (forall u, In u (vorder f) <-> cluster b o1 v (o2 ++ Q) u) /\ length (data (pot f)) = entries b (vorder f).
Proof. intros WB EV K ND I P. exact (sums_top b WB Q ev o EV K ND I P). Qed.

(** No table is larger than the largest of these and the answer's. *)
Theorem C66_tables {SO : SetOrder} b Q ev o e h :
  wf_bn b -> ev_ok b ev -> incl (dkeys ev) (bnames b) -> NoDup Q -> incl Q (bnames b) -> Permutation (bnames b) o ->
  let l := fst (bucket_log b Q ev o) in
  In e l -> In h (tables e) ->
  (exists v f, In (v, f) (sums l) /\ incl (vorder h) (vorder f) /\ length (data (pot h)) <= length (data (pot f))) \/
  incl (vorder h) Q /\ length (data (pot h)) <= entries b Q.
Proof. intros WB EV K ND I P. exact (tables_top b WB Q ev o EV K ND I P e h). Qed.

(** The first variable to go is joined with everything it shares a family with: eliminate a
    variable that has a family in common with all others first and the table is the joint distribution's. *)
Theorem C66_hub_first {SO : SetOrder} b Q ev o v rest :
  wf_bn b -> ev_ok b ev -> incl (dkeys ev) (bnames b) -> NoDup Q -> incl Q (bnames b) -> Permutation (bnames b) o ->
  fronts Q o = v :: rest -> (forall u, In u (bnames b) -> related b v u) ->
  exists f, In (v, f) (sums (fst (bucket_log b Q ev o))) /\ length (data (pot f)) = entries b (bnames b).
Proof. intros WB EV K ND I P. exact (hub_top b WB Q ev o EV K ND I P v rest). Qed.

(** An order that never connects unconnected variables: query variables apart, the variables
    of a table pairwise share a family. *)
Theorem C66_perfect {SO : SetOrder} b Q ev o e h :
  wf_bn b -> ev_ok b ev -> incl (dkeys ev) (bnames b) -> NoDup Q -> incl Q (bnames b) -> Permutation (bnames b) o -> perfect_order b o ->
  In e (fst (bucket_log b Q ev o)) -> In h (tables e) ->
  forall u w, In u (vorder h) -> In w (vorder h) -> ~ In u Q -> ~ In w Q -> u <> w -> interacts b u w.
Proof. intros WB EV K ND I P. exact (perfect_top b WB Q ev o EV K ND I P e h). Qed.

(** At most one parent each, children first: no table is larger than that of a family and the query. *)
Theorem C66_forest {SO : SetOrder} b Q ev o e h :
  wf_bn b -> ev_ok b ev -> incl (dkeys ev) (bnames b) -> NoDup Q -> incl Q (bnames b) -> Permutation (bnames b) o ->
  single_parent b -> upwards b o -> bnodes b <> [] ->
  In e (fst (bucket_log b Q ev o)) -> In h (tables e) ->
  exists n, In n (bnodes b) /\ incl (vorder h) (family n ++ Q) /\ length (data (pot h)) <= entries b (family n ++ Q).
Proof. intros WB EV K ND I P. exact (forest_top b WB Q ev o EV K ND I P e h). Qed.

(** The same for polytrees and the default order. *)
Theorem C66_default {SO : SetOrder} b Q ev :
  wf_bn b -> wf_graph b -> edges_match b -> polytree b -> ev_ok b ev -> incl (dkeys ev) (bnames b) -> NoDup Q -> incl Q (bnames b) -> bnodes b <> [] ->
  exists o, order_or_default b None = Ok o /\ forall e h, In e (fst (bucket_log b Q ev o)) -> In h (tables e) ->
    exists n, In n (bnodes b) /\ incl (vorder h) (family n ++ Q) /\ length (data (pot h)) <= entries b (family n ++ Q).
Proof. intros WB. exact (default_top b WB Q ev). Qed.

(** ** Concrete cases *)
Definition star : bn := mkBN [root "A"; child "B" "A"; child "C" "A"; child "D" "A"; child "E" "A"] ["A"; "B"; "C"; "D"; "E"]
  [("A", "B"); ("A", "C"); ("A", "D"); ("A", "E")].
Definition star_ev : evidence := [("D", Hard "t"); ("B", Soft [qq 1 2; 1%Qc])].
Lemma star_wf : wf_bn star. Proof. apply wf_bnb_ok. vm_compute. reflexivity. Qed.
Lemma star_graph : wf_graph star. Proof. apply wf_graphb_ok. vm_compute. reflexivity. Qed.

(** Children first: at most 4 numbers; the root first: 32, as many as the joint distribution has. *)
Definition sizes (l : list event) : list nat := map (fun h => length (data (pot h))) (flat_map tables l).
Example C66_example :
  wf_bn star /\ wf_graph star /\ edges_match star /\ polytree star /\ single_parent star /\ bnodes star <> [] /\
  ev_ok star star_ev /\ incl (dkeys star_ev) (bnames star) /\ NoDup ["E"] /\ incl ["E"] (bnames star) /\
  Permutation (bnames star) ["D"; "E"; "B"; "C"; "A"] /\ upwards star ["D"; "E"; "B"; "C"; "A"] /\ perfect_order star ["D"; "E"; "B"; "C"; "A"] /\
  fold_right Nat.max 0 (sizes (fst (@bucket_log listing_order star ["E"] star_ev ["D"; "E"; "B"; "C"; "A"]))) = 4 /\
  Permutation (bnames star) ["A"; "D"; "B"; "C"; "E"] /\ (forall u, In u (bnames star) -> related star "A" u) /\
  fold_right Nat.max 0 (sizes (fst (@bucket_log listing_order star ["E"] star_ev ["A"; "D"; "B"; "C"; "E"]))) = 32 /\
  fold_right Nat.max 0 (sizes (fst (@naive_log listing_order star ["E"] star_ev))) = 32 /\
  map (fun p => (fst p, vorder (snd p))) (sums (fst (@bucket_log listing_order star ["E"] star_ev ["D"; "E"; "B"; "C"; "A"]))) =
    [("D", ["D"; "A"]); ("B", ["B"; "A"]); ("C", ["C"; "A"]); ("A", ["A"; "E"])].
Proof.
  split; [exact star_wf|]. split; [exact star_graph|]. split; [apply edges_matchb_ok; vm_compute; reflexivity|].
  split; [apply (stripsb_ok star ["B"; "C"; "D"; "E"; "A"] star_graph); [apply nodup_s_spec; reflexivity|reflexivity|apply inclb_ok; reflexivity]|].
  split; [intros n H; cbn in H; repeat (destruct H as [<-|H]; [cbn; lia|]); destruct H|]. split; [discriminate|].
  split; [apply ev_okb_ok; vm_compute; reflexivity|]. split; [apply inclb_ok; reflexivity|]. split; [apply nodup_s_spec; reflexivity|]. split; [apply inclb_ok; reflexivity|].
  split; [apply permb_ok; reflexivity|].
  split; [intros n p l1 l2 H Hp E; assert (p = "A") as -> by (cbn in H; repeat (destruct H as [<-|H]; [cbn in Hp; intuition congruence|]); destruct H)|].
  { destruct (mid_same "A" l1 l2 ["D"; "E"; "B"; "C"] []) as [-> _]; [rewrite <- E; apply nodup_s_spec; reflexivity|symmetry; exact E|].
    cbn in H. repeat (destruct H as [<-|H]; [cbn in *; tauto|]). destruct H. }
  split; [apply perfectb_ok; reflexivity|]. split; [vm_compute; reflexivity|]. split; [apply permb_ok; reflexivity|].
  split; [|repeat split; vm_compute; reflexivity].
  intros u Hu. destruct (string_dec u "A") as [->|N].
  - exists (root "A"). cbn; auto.
  - apply in_map_iff in Hu as (n & <- & Hn). exists n. split; [exact Hn|]. split; [|now left].
    cbn in Hn. repeat (destruct Hn as [<-|Hn]; [cbn in *; tauto|]). destruct Hn.
Qed.

Print Assumptions C66_same_program.
Print Assumptions C66_naive.
Print Assumptions C66_sums.
Print Assumptions C66_tables.
Print Assumptions C66_hub_first.
Print Assumptions C66_perfect.
Print Assumptions C66_forest.
Print Assumptions C66_default.
Print Assumptions C66_example.
