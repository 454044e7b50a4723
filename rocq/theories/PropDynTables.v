(** C86: the tables of filtering over time. *)
From Verif Require Import Base BaseFacts NDArray Factor FactorFacts Exact Order OrderProof OrderSpec Spec SpecFacts SepSpec JoinTree TreeSpec JTDefault JTPolytree TablesSpec
  TreeTables TreeTablesSpec TreeTablesProof TreeTablesTop Node Network NetSpec NetView Dynamic DynSpec DynTables DynTablesSpec DynTablesProof DynTablesTop
  FactorProofs Checks NetChecks DynChecks ExampleNets Instances PropVE PropTree PropDynamic.

(** Memory for the tables of B_0 and of one 2-TBN is enough for any number of time slices:
    after any history of calls, with any evidence, failing or not, the state is the same. *)
Theorem C86_history {SO : SetOrder} m h d B x cs :
  housed (view (mkW h (db0 d))) B -> housed (view (mkW h (dtwo d))) B ->
  capped_mrun m x B (mcreate m h d) cs = mrun m (mcreate m h d) cs.
Proof. intros H0 H1. apply run_top. intros [|]; assumption. Qed.

(** So are the outcome of the next call, exceptions included, and the answer of a query. *)
Theorem C86_call {SO : SetOrder} m h d B x cs c :
  housed (view (mkW h (db0 d))) B -> housed (view (mkW h (dtwo d))) B ->
  capped_mexec m x B (mrun m (mcreate m h d) cs) c = mexec m (mrun m (mcreate m h d) cs) c.
Proof. intros H0 H1. apply call_top. intros [|]; assumption. Qed.

Theorem C86_query {SO : SetOrder} m h d B x cs Q :
  housed (view (mkW h (db0 d))) B -> housed (view (mkW h (dtwo d))) B ->
  capped_dmarginals x B (mrun m (mcreate m h d) cs) Q = dmarginals (mrun m (mcreate m h d) cs) Q.
Proof. intros H0 H1. apply ask_top. intros [|]; assumption. Qed.

(** What is kept between the calls does not grow either: as many node objects as at the start
    with tables of the same lengths, one stored vector for each transition, a tree with at most
    one clique for each node of one network. *)
Theorem C86_kept {SO : SetOrder} m h d B cs : let s := mrun m (mcreate m h d) cs in
  housed (view (mkW h (db0 d))) B -> housed (view (mkW h (dtwo d))) B ->
  length (mheap s) = length (mheap (mcreate m h d)) /\
  (forall first, map (fun n => length (data (dn_cpd n))) (bnodes (slice_net s first)) =
     map (fun n => length (data (dn_cpd n))) (bnodes (view (mkW h (if first then db0 d else dtwo d))))) /\
  length (mtrans s) <= length (dtrans d) /\ (forall v a, dget v (mtrans s) = Some a -> length (data a) <= B) /\
  (forall first t, mtree s = Some (first, t) -> length (tnodes t) <= length (bnodes (view (mkW h (if first then db0 d else dtwo d)))) /\
     (forall k c, dget k (tnodes t) = Some c -> length (data (pot (cfac c))) <= B) /\
     (forall u v e, eget u v (tedges t) = Some e -> dget v (tnodes t) <> None -> length (data (pot (sfac e))) <= B)).
Proof. intros s H0 H1. apply (kept_top m h d B). intros [|]; assumption. Qed.

(** Polytrees: memory for the largest conditional probability table is enough. *)
Theorem C86_polytree {SO : SetOrder} b B :
  wf_bn b -> wf_graph b -> edges_match b -> decodable (bnames b) -> polytree b ->
  (forall n, In n (bnodes b) -> length (data (dn_cpd n)) <= B) -> housed b B.
Proof. exact (polytree_housed b B). Qed.

(** ** Concrete cases *)
Lemma duo0_poly : wf_bn duo0 /\ wf_graph duo0 /\ edges_match duo0 /\ decodable (bnames duo0) /\ polytree duo0.
Proof.
  destruct (session_hyps duo0) as (A & B & _ & D); [vm_compute; reflexivity|]. split; [exact A|]. split; [exact B|].
  split; [apply edges_matchb_ok; vm_compute; reflexivity|]. split; [exact D|].
  apply (stripsb_ok duo0 ["a"; "b"; "c"] B); [apply nodup_s_spec; reflexivity|reflexivity|apply inclb_ok; reflexivity].
Qed.
Lemma duo1_poly : wf_bn duo1 /\ wf_graph duo1 /\ edges_match duo1 /\ decodable (bnames duo1) /\ polytree duo1.
Proof.
  destruct (session_hyps duo1) as (A & B & _ & D); [vm_compute; reflexivity|]. split; [exact A|]. split; [exact B|].
  split; [apply edges_matchb_ok; vm_compute; reflexivity|]. split; [exact D|].
  apply (stripsb_ok duo1 ["olda"; "oldb"; "a"; "b"; "c"] B); [apply nodup_s_spec; reflexivity|reflexivity|apply inclb_ok; reflexivity].
Qed.

Lemma duo_housed {SO : SetOrder} : housed (view (mkW duo_h (db0 duo_d))) 8 /\ housed (view (mkW duo_h (dtwo duo_d))) 8.
Proof.
  rewrite duo_v0, duo_v1. destruct duo0_poly as (A & B & C & D & E). destruct duo1_poly as (A' & B' & C' & D' & E').
  split; apply polytree_housed; auto; intros n H; cbn [bnodes duo0 duo1] in H; repeat (destruct H as [<-|H]; [cbn; lia|]); destruct H.
Qed.

(** Two persistent causes, 8 entries; a history with evidence that fails. *)
Definition long_calls : list mcall :=
  [MUnroll (Some [("c", Hard "t")]) None; MQuery ["a"]; MUnroll (Some [("c", Hard "t"); ("nope", Hard "t")]) None; MEvidence (Some [("c", Hard "f")]) None;
   MUnroll None None; MQuery ["a"; "olda"]; MUnroll (Some []) (Some true); MEvidence (Some [("c", Soft [qq 1 2; 1%Qc])]) None; MUnroll None None].

Example C86_example : let SO := listing_order in
  housed (view (mkW duo_h (db0 duo_d))) 8 /\ housed (view (mkW duo_h (dtwo duo_d))) 8 /\
  (let s := mrun PriorFeedback (mcreate PriorFeedback duo_h duo_d) long_calls in
   mt s = 4 /\ length (mheap s) = 16 /\
   match mtree s with Some (first, t) => (first, map (fun p => length (data (pot (cfac (snd p))))) (tnodes t)) | None => (true, []) end = (false, [8; 4; 4]) /\
   snd (capped_mexec PriorFeedback KeyError 7 s (MEvidence (Some [("c", Hard "t")]) None)) = Err KeyError) /\
  (let s := mrun SoftEvidence (mcreate SoftEvidence duo_h duo_d) long_calls in
   mt s = 3 /\ length (mheap s) = 8 /\ map (fun p => (fst p, length (data (snd p)))) (mtrans s) = [("olda", 2); ("oldb", 2)]).
Proof.
  intros SO. split; [exact (proj1 (duo_housed (SO := listing_order)))|]. split; [exact (proj2 (duo_housed (SO := listing_order)))|]. split; cbv zeta; repeat (split; [vm_compute; reflexivity|]); vm_compute; reflexivity.
Qed.

(** One entry less: the first call raises and no tree is made, and so do later calls that set
    evidence.  With still less the other steps fail. *)
Theorem C86_less_refuted : exists (SO : SetOrder) h d cs ev, housed (view (mkW h (db0 d))) 8 /\ housed (view (mkW h (dtwo d))) 8 /\
  forall m x, x <> IndexError ->
    snd (mexec m (mcreate m h d) (MUnroll None None)) = Ok tt /\
    capped_mexec m x 7 (mcreate m h d) (MUnroll None None) = (mcreate m h d, Err x) /\
    let s := mrun m (mcreate m h d) cs in
    mflag s = true /\
    snd (mexec m s (MEvidence (Some ev) None)) = Ok tt /\ snd (capped_mexec m x 7 s (MEvidence (Some ev) None)) = Err x /\
    snd (mexec m s (MUnroll (Some ev) None)) = Ok tt /\ snd (capped_mexec m x 7 s (MUnroll (Some ev) None)) = Err x /\
    snd (mexec m s (MUnroll None None)) = Ok tt /\ snd (capped_mexec m x 1 s (MUnroll None None)) = Err x /\
    snd (mexec m s (MQuery ["a"])) = Ok tt /\ snd (capped_mexec m x 1 s (MQuery ["a"])) = Err x.
Proof.
  exists listing_order, duo_h, duo_d, [MUnroll None None; MUnroll (Some [("c", Hard "t")]) None; MEvidence (Some [("c", Hard "t")]) None], [("c", Hard "f")].
  split; [exact (proj1 (duo_housed (SO := listing_order)))|]. split; [exact (proj2 (duo_housed (SO := listing_order)))|].
  intros m x NX. destruct m; destruct x; try (destruct (NX eq_refl)); cbv zeta; repeat (split; [vm_compute; reflexivity|]); vm_compute; reflexivity.
Qed.

Print Assumptions C86_history.
Print Assumptions C86_call.
Print Assumptions C86_query.
Print Assumptions C86_kept.
Print Assumptions C86_polytree.
Print Assumptions C86_example.
Print Assumptions C86_less_refuted.
