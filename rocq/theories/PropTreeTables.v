(** C85: the tables that a join tree makes. *)
From Verif Require Import Base BaseFacts NDArray Factor FactorFacts Exact Order OrderProof OrderSpec Spec SpecFacts SepSpec JoinTree TreeSpec JTDefault JTPolytree TablesSpec
  TreeTables TreeTablesSpec TreeTablesProof TreeTablesTop FactorProofs Checks NetChecks ExampleNets Instances PropVE PropTree.

(** With limited memory an operation gives the same table or none at all. *)
Theorem C85_limit {SO : SetOrder} x B f g v h e :
  (capped_mul x B f g = Ok h <-> fmul f g = Ok h /\ length (data (pot h)) <= B) /\
  (capped_marg x B f v = Ok h <-> marginalize1 f v = Ok h /\ length (data (pot h)) <= B) /\
  (capped_invert x B f = Ok h <-> finvert f = Ok h /\ length (data (pot h)) <= B) /\
  (capped_mul x B f g = Err e <-> fmul f g = Err e \/ e = x /\ exists h, fmul f g = Ok h /\ B < length (data (pot h))).
Proof. split; [exact (capped_ok x B _ h)|]. split; [exact (capped_ok x B _ h)|]. split; [exact (capped_ok x B _ h)|exact (capped_bad x B _ e)]. Qed.

(** If no variable with its later relatives has a table of more than [B] entries, memory for
    [B] entries is enough to create the tree: the result is the same, exceptions included. *)
Theorem C85_create {SO : SetOrder} b0 order x B :
  wf_bn b0 -> wf_graph b0 -> edges_match b0 -> decodable (bnames b0) ->
  (forall o, order_or_default b0 order = Ok o -> roomy b0 o B) ->
  capped_jointree x B b0 order = create_jointree b0 order.
Proof. intros WB WG EM DC. exact (create_eq b0 WB WG EM DC x B order). Qed.

(** The same for all later calls, after any calls whatever their outcome. *)
Theorem C85_reset {SO : SetOrder} b0 o b t b' x B :
  wf_bn b0 -> wf_graph b0 -> edges_match b0 -> decodable (bnames b0) -> serves b0 o b t ->
  same_arcs b0 b' -> wf_bn b' -> roomy b' o B -> capped_reset x B b' t = reset_factors b' t.
Proof. intros WB WG EM DC. exact (reset_top b0 WB WG EM DC o b t b' x B). Qed.

Theorem C85_evidence {SO : SetOrder} b0 o b t b' ev soft x B :
  wf_bn b0 -> wf_graph b0 -> edges_match b0 -> decodable (bnames b0) -> serves b0 o b t ->
  same_arcs b0 b' -> wf_bn b' -> roomy b' o B -> capped_evidence x B b' ev soft t = set_evidence b' ev soft t.
Proof. intros WB WG EM DC. exact (evidence_top b0 WB WG EM DC o b t b' ev soft x B). Qed.

Theorem C85_messages {SO : SetOrder} b0 o b t x B :
  wf_bn b0 -> wf_graph b0 -> edges_match b0 -> decodable (bnames b0) -> serves b0 o b t ->
  roomy b o B -> capped_messages x B t = calculate_messages t.
Proof. intros WB WG EM DC. exact (messages_top b0 WB WG EM DC o b t x B). Qed.

Theorem C85_query {SO : SetOrder} b0 o b t Q x B :
  wf_bn b0 -> wf_graph b0 -> edges_match b0 -> decodable (bnames b0) -> serves b0 o b t ->
  roomy b o B -> capped_tree x B t Q = tmarginals t Q.
Proof. intros WB WG EM DC. exact (query_top b0 WB WG EM DC o b t Q x B). Qed.

(** What is kept between the calls: at most one clique for each variable of the order, each a
    variable with later relatives; tables over the variables of the clique or separator. *)
Theorem C85_stored {SO : SetOrder} b0 o b t :
  wf_bn b0 -> wf_graph b0 -> edges_match b0 -> decodable (bnames b0) -> serves b0 o b t ->
  length (tnodes t) <= length o /\
  (forall k c, dget k (tnodes t) = Some c -> NoDup (cvars c) /\ round b o (cvars c) /\ incl (vorder (cfac c)) (cvars c) /\
     length (data (pot (cfac c))) <= entries b (cvars c)) /\
  (forall u v s c, eget u v (tedges t) = Some s -> dget v (tnodes t) = Some c -> incl (svars s) (cvars c) /\ incl (vorder (sfac s)) (svars s) /\
     length (data (pot (sfac s))) <= entries b (cvars c)).
Proof. intros WB WG EM DC. exact (stored_top b0 WB WG EM DC o b t). Qed.

(** Polytrees and the default order: memory for the largest conditional probability table is enough. *)
Theorem C85_default {SO : SetOrder} b0 b o B :
  wf_bn b0 -> wf_graph b0 -> edges_match b0 -> polytree b0 -> order_or_default b0 None = Ok o ->
  same_arcs b0 b -> wf_bn b -> (forall n, In n (bnodes b) -> length (data (dn_cpd n)) <= B) -> roomy b o B.
Proof. exact (polytree_roomy b0 b o B). Qed.

(** Orders that never connect unconnected variables: the largest set of variables that
    pairwise share a family. *)
Theorem C85_perfect b o B :
  wf_bn b -> Permutation (bnames b) o -> perfect_order b o ->
  (forall K, NoDup K -> (forall u w, In u K -> In w K -> u <> w -> interacts b u w) -> entries b K <= B) -> roomy b o B.
Proof. exact (perfect_roomy b o B). Qed.

(** ** Concrete cases *)

(** [loop5]: clusters of three variables. *)
Definition round5 : list string := ["D"; "A"; "C"; "B"; "E"].
Definition tree5 : jtree := match @create_jointree listing_order loop5 (Some round5) with Ok t => t | Err _ => mkT [] [] [] false end.
Definition tree5' : jtree := fst (@set_evidence listing_order loop5 [("D", Hard "t"); ("B", Soft [qq 1 2; 1%Qc])] false tree5).

Lemma loop5_hyps : wf_bn loop5 /\ wf_graph loop5 /\ edges_match loop5 /\ decodable (bnames loop5).
Proof.
  destruct (session_hyps loop5) as (A & B & _ & D); [vm_compute; reflexivity|].
  split; [exact A|]. split; [exact B|]. split; [apply edges_matchb_ok; vm_compute; reflexivity|exact D].
Qed.

Lemma tree5_serves : serves (SO := listing_order) loop5 round5 loop5 tree5'.
Proof.
  apply SV_evidence with (b := loop5).
  - apply (SV_create (SO := listing_order) loop5 round5 (Some round5)); [reflexivity|vm_compute; reflexivity].
  - reflexivity.
  - apply loop5_hyps.
Qed.

Example C85_example :
  wf_bn loop5 /\ wf_graph loop5 /\ edges_match loop5 /\ decodable (bnames loop5) /\ order_or_default loop5 (Some round5) = Ok round5 /\
  roomy loop5 round5 8 /\ serves (SO := listing_order) loop5 round5 loop5 tree5' /\ same_arcs loop5 loop5 /\
  map (fun p => (cvars (snd p), length (data (pot (cfac (snd p)))))) (tnodes tree5') = [(["C"; "B"; "E"], 8); (["A"; "B"; "E"], 8); (["D"; "C"; "E"], 8)] /\
  map snd (map (fun p => (fst p, length (data (pot (sfac (snd p)))))) (tedges tree5')) = [4; 4].
Proof.
  destruct loop5_hyps as (A & B & C & D). split; [exact A|]. split; [exact B|]. split; [exact C|]. split; [exact D|]. split; [reflexivity|].
  split; [apply roomyb_ok; [exact A|apply inclb_ok; reflexivity|vm_compute; reflexivity]|]. split; [exact tree5_serves|]. split; [reflexivity|].
  split; vm_compute; reflexivity.
Qed.

(** A polytree: 12 entries, as many as the largest table of the network has. *)
Example C85_default_example : exists o, order_or_default poly None = Ok o /\
  wf_bn poly /\ wf_graph poly /\ edges_match poly /\ polytree poly /\ same_arcs poly poly /\
  map (fun n => length (data (dn_cpd n))) (bnodes poly) = [2; 2; 12; 2; 12; 4] /\ ~ roomy poly o 11.
Proof.
  eexists. split; [vm_compute; reflexivity|].
  assert (W : wf_bn poly) by (apply wf_bnb_ok; vm_compute; reflexivity). assert (G : wf_graph poly) by (apply wf_graphb_ok; vm_compute; reflexivity).
  split; [exact W|]. split; [exact G|]. split; [apply edges_matchb_ok; vm_compute; reflexivity|].
  split; [apply (stripsb_ok poly ["A"; "B"; "E"; "F"; "C"; "D"] G); [apply nodup_s_spec; reflexivity|reflexivity|apply inclb_ok; reflexivity]|].
  split; [reflexivity|]. split; [reflexivity|]. intros R.
  assert (X : entries poly ["A"; "C"; "B"] <= 11); [|vm_compute in X; lia].
  apply R; [apply nodup_s_spec; reflexivity|].
  exists []. do 2 eexists. split; [reflexivity|]. intros u Hu. right. split; [intros []|].
  eexists. split; [right; right; left; reflexivity|]. cbn in Hu |- *. intuition congruence.
Qed.

(** Children first: no two variables get connected, two variables share each family. *)
Example C85_perfect_example :
  wf_bn arbo /\ Permutation (bnames arbo) ["T"; "S2"; "S1"; "R"] /\ perfect_order arbo ["T"; "S2"; "S1"; "R"] /\
  roomy arbo ["T"; "S2"; "S1"; "R"] 4.
Proof.
  assert (W : wf_bn arbo) by (apply wf_bnb_ok; vm_compute; reflexivity).
  split; [exact W|]. split; [apply permb_ok; reflexivity|]. split; [apply perfectb_ok; reflexivity|].
  apply roomyb_ok; [exact W|apply inclb_ok; reflexivity|vm_compute; reflexivity].
Qed.

(** One entry less than the largest cluster needs: every call can fail. *)
Theorem C85_less_refuted : exists (SO : SetOrder) b0 o t,
  wf_bn b0 /\ wf_graph b0 /\ edges_match b0 /\ decodable (bnames b0) /\ roomy b0 o 8 /\ serves b0 o b0 t /\
  (forall x, capped_jointree x 7 b0 (Some o) = Err x) /\
  (forall x, snd (capped_reset x 7 b0 t) = Err x) /\
  (forall x, snd (capped_evidence x 7 b0 [("D", Hard "t")] false t) = Err x) /\
  (forall x, snd (capped_evidence x 7 b0 [("D", Soft [qq 1 2; qq 1 2])] true t) = Err x) /\
  (forall x, snd (capped_messages x 7 t) = match x with IndexError => Ok tt | _ => Err x end) /\
  (forall x, snd (capped_tree x 3 t ["B"]) = Err x) /\
  snd (tmarginals t ["B"]) = Ok (mkF (mkArr [2] [qq 2425 6127; qq 3702 6127]) ["B"] [("B", tf)]).
Proof.
  exists listing_order, loop5, round5, tree5'. destruct loop5_hyps as (A & B & C & D).
  split; [exact A|]. split; [exact B|]. split; [exact C|]. split; [exact D|]. split; [apply C85_example|]. split; [exact tree5_serves|].
  split; [intros x; vm_compute; reflexivity|]. split; [intros x; vm_compute; reflexivity|]. split; [intros x; vm_compute; reflexivity|].
  split; [intros x; vm_compute; reflexivity|]. split; [intros x; destruct x; vm_compute; reflexivity|]. split; [intros x; vm_compute; reflexivity|].
  vm_compute. f_equal. f_equal. f_equal. repeat (apply (f_equal2 cons); [apply Qc_is_canon; reflexivity|]). reflexivity.
Qed.

Print Assumptions C85_limit.
Print Assumptions C85_create.
Print Assumptions C85_reset.
Print Assumptions C85_evidence.
Print Assumptions C85_messages.
Print Assumptions C85_query.
Print Assumptions C85_stored.
Print Assumptions C85_default.
Print Assumptions C85_perfect.
Print Assumptions C85_example.
Print Assumptions C85_default_example.
Print Assumptions C85_perfect_example.
Print Assumptions C85_less_refuted.
