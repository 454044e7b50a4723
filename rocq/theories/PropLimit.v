(** C69: Python's recursion limit and join trees. *)
From Verif Require Import Base BaseFacts NDArray Factor Exact Order OrderSpec Spec SpecFacts JoinTree TreeSpec JTTop JTDefault
  FactorProofs RecLimit RecLimitSpec RecLimitProof RecLimitTop RecLimitChain Checks ExampleNets Instances.

(** Apart from the limit the program is that of JoinTree.v. *)
Theorem C69_same_program {SO : SetOrder} b ev soft Q t :
  tmarginals_with calculate_messages t Q = tmarginals t Q /\ set_evidence_with calculate_messages b ev soft t = set_evidence b ev soft t.
Proof. split; [apply with_messages|apply with_evidence]. Qed.

(** While no path from the first clique has as many links as calls fit, the limit has no effect. *)
Theorem C69_within {SO : SetOrder} limit b0 order t :
  wf_bn b0 -> wf_graph b0 -> nonneg_bn b0 -> decodable (bnames b0) -> session_within limit b0 order t -> ~ deep t limit ->
  calculate_messages_within limit t = calculate_messages t /\
  (forall Q, tmarginals_within limit t Q = tmarginals t Q) /\
  (forall b ev soft, set_evidence_within limit b ev soft t = set_evidence b ev soft t).
Proof. intros W G N D. exact (within_limit b0 W G N D limit order t). Qed.

(** Otherwise every query and every observation raises, whatever was called before: no
    number computed from half-sent messages is ever returned. *)
Theorem C69_over {SO : SetOrder} limit b0 order t :
  wf_bn b0 -> wf_graph b0 -> nonneg_bn b0 -> decodable (bnames b0) -> session_within limit b0 order t -> deep t limit ->
  (forall Q, exists e, snd (tmarginals_within limit t Q) = Err e) /\
  (forall b ev soft, exists e, snd (set_evidence_within limit b ev soft t) = Err e).
Proof. intros W G N D. exact (over_limit b0 W G N D limit order t). Qed.

(** The exception is a RecursionError: for legal evidence, and for queries after the
    creation of the tree or after reset_factors. *)
Theorem C69_error {SO : SetOrder} limit b0 order o t :
  nonneg_bn b0 -> order_or_default b0 order = Ok o -> suits b0 o -> session_within limit b0 order t -> deep t limit ->
  (forall b ev soft, same_arcs b0 b -> wf_bn b -> nonneg_bn b -> ev_ok b ev -> incl (dkeys ev) (bnames b) ->
     snd (set_evidence_within limit b ev soft t) = Err RecursionError) /\
  (forall b Q, same_arcs b0 b -> wf_bn b -> nonneg_bn b -> snd (tmarginals_within limit (fst (reset_factors b t)) Q) = Err RecursionError) /\
  (forall Q, create_jointree b0 order = Ok t -> snd (tmarginals_within limit t Q) = Err RecursionError).
Proof.
  intros N EO SU H D. assert (X := over_limit_error b0 (su_bn _ _ SU) (su_graph _ _ SU) N (su_names _ _ SU) limit order o t EO SU H D).
  split; [apply X|]. split; [apply X|]. intros Q E. exact (over_limit_first b0 (su_bn _ _ SU) (su_graph _ _ SU) N (su_names _ _ SU) limit order o t Q EO SU E D).
Qed.

(** No limit is enough: chains of 4*limit+2 nodes, whatever order makes their join tree,
    answer nothing and accept no evidence. *)
Theorem C69_chain_refuted {SO : SetOrder} limit : exists b, wf_bn b /\ wf_graph b /\ nonneg_bn b /\ length (bnodes b) = S (S (4 * limit)) /\
  (exists o, order_or_default b None = Ok o /\ suits b o) /\
  forall order o, order_or_default b order = Ok o -> suits b o -> exists t, create_jointree b order = Ok t /\
    (forall Q, snd (tmarginals_within limit t Q) = Err RecursionError) /\
    (forall ev soft, ev_ok b ev -> incl (dkeys ev) (bnames b) -> snd (set_evidence_within limit b ev soft t) = Err RecursionError).
Proof.
  exists (chain_of (S (4 * limit))). split; [apply chain_wf|]. split; [apply chain_graph|]. split; [apply chain_nonneg|].
  split; [cbn [bnodes chain_of Datatypes.length]; rewrite map_length, seq_length; reflexivity|].
  split; [exact (chain_suits _)|]. intros order o EO SU. destruct (create_ok _ o order SU (chain_nonneg _) EO) as (t & r & sv & E & _). exists t. split; [exact E|].
  assert (D : deep t limit) by (apply (chain_deep (S (4 * limit)) o order t limit SU EO E); lia).
  destruct (C69_error limit _ order o t (chain_nonneg _) EO SU (SW_create _ _ _ _ E) D) as (A & _ & B).
  split; [intros Q; apply B, E|]. intros ev soft EV K. apply A; auto; [reflexivity|apply chain_wf|apply chain_nonneg].
Qed.

(** With the default order or any other that adds no fill-in, 2*limit+2 nodes are too many. *)
Theorem C69_chain_perfect_refuted {SO : SetOrder} limit : exists b, wf_bn b /\ wf_graph b /\ nonneg_bn b /\ length (bnodes b) = S (S (2 * limit)) /\
  (exists o, order_or_default b None = Ok o /\ suits b o /\ perfect_order b o) /\
  forall order o, order_or_default b order = Ok o -> suits b o -> perfect_order b o -> exists t, create_jointree b order = Ok t /\
    (forall Q, snd (tmarginals_within limit t Q) = Err RecursionError) /\
    (forall ev soft, ev_ok b ev -> incl (dkeys ev) (bnames b) -> snd (set_evidence_within limit b ev soft t) = Err RecursionError).
Proof.
  exists (chain_of (S (2 * limit))). split; [apply chain_wf|]. split; [apply chain_graph|]. split; [apply chain_nonneg|].
  split; [cbn [bnodes chain_of Datatypes.length]; rewrite map_length, seq_length; reflexivity|].
  split; [destruct (chain_suits (S (2 * limit))) as (o & EO & SU); exists o; split; [exact EO|]; split; [exact SU|exact (chain_perfect _ o EO)]|].
  intros order o EO SU PF. destruct (create_ok _ o order SU (chain_nonneg _) EO) as (t & r & sv & E & _). exists t. split; [exact E|].
  assert (D : deep t limit) by (apply (chain_deep (S (2 * limit)) o order t limit SU EO E); right; split; [exact PF|lia]).
  destruct (C69_error limit _ order o t (chain_nonneg _) EO SU (SW_create _ _ _ _ E) D) as (A & _ & B).
  split; [intros Q; apply B, E|]. intros ev soft EV K. apply A; auto; [reflexivity|apply chain_wf|apply chain_nonneg].
Qed.

(** A chain of five nodes: three nested calls do not suffice, four do. *)
Definition chain5 : bn := chain_of 4.
Definition chain5_tree : jtree := match @create_jointree listing_order chain5 None with Ok t => t | Err _ => mkT [] [] [] false end.

Lemma chain5_created : @create_jointree listing_order chain5 None = Ok chain5_tree.
Proof. vm_compute. reflexivity. Qed.

Example chain5_deep : deep chain5_tree 3.
Proof.
  exists "111011110", ["1101110"; "10110"; "010"], ["1101110"; "10110"; "010"]. split; [vm_compute; reflexivity|]. split; [apply nodup_s_spec; reflexivity|].
  split; [|reflexivity]. split; [vm_compute; auto|]. split; [vm_compute; auto|]. split; [vm_compute; auto|exact I].
Qed.

Example chain5_flat : ~ deep chain5_tree 4.
Proof.
  intros D. destruct (C69_over (SO := listing_order) 4 chain5 None chain5_tree (chain_wf _) (chain_graph _) (chain_nonneg _) (prefix_free_decodable _ (chain_prefix _)) (SW_create _ _ _ _ chain5_created) D) as [A _].
  destruct (A ["0"]) as (e & E). vm_compute in E. discriminate.
Qed.

Example C69_within_case Q : @tmarginals_within listing_order 4 chain5_tree Q = @tmarginals listing_order chain5_tree Q.
Proof.
  apply (C69_within (SO := listing_order) 4 chain5 None chain5_tree (chain_wf _) (chain_graph _) (chain_nonneg _) (prefix_free_decodable _ (chain_prefix _)) (SW_create _ _ _ _ chain5_created) chain5_flat).
Qed.

(** The same after evidence with the smaller limit: both the evidence and the query raise. *)
Example C69_error_case Q : let t := fst (@set_evidence_within listing_order 3 chain5 [("0", Hard "t")] false chain5_tree) in
  snd (@set_evidence_within listing_order 3 chain5 [("0", Hard "t")] false chain5_tree) = Err RecursionError /\
  (exists e, snd (@tmarginals_within listing_order 3 t Q) = Err e) /\
  snd (@tmarginals_within listing_order 3 (fst (@reset_factors listing_order chain5 t)) Q) = Err RecursionError.
Proof.
  intros t. assert (S0 : @session_within listing_order 3 chain5 None chain5_tree) by (apply SW_create, chain5_created).
  assert (S1 : @session_within listing_order 3 chain5 None t) by (apply SW_evidence, S0).
  assert (D1 : deep t 3) by (eapply deep_skel; [symmetry; apply skel_set_evidence_with, skel_calc_within|exact chain5_deep]).
  destruct (chain_suits 4 (SO := listing_order)) as (o & EO & SU).
  destruct (C69_error 3 chain5 None o _ (chain_nonneg _) EO SU S0 chain5_deep) as (A & _ & _).
  destruct (C69_error 3 chain5 None o _ (chain_nonneg _) EO SU S1 D1) as (_ & B & _).
  split; [apply A; [reflexivity|apply chain_wf|apply chain_nonneg|apply ev_okb_ok; vm_compute; reflexivity|apply inclb_ok; vm_compute; reflexivity]|].
  split; [|apply B; [reflexivity|apply chain_wf|apply chain_nonneg]].
  apply (proj1 (C69_over 3 chain5 None t (chain_wf _) (chain_graph _) (chain_nonneg _) (prefix_free_decodable _ (chain_prefix _)) S1 D1)).
Qed.

Print Assumptions C69_same_program.
Print Assumptions C69_within.
Print Assumptions C69_over.
Print Assumptions C69_error.
Print Assumptions C69_chain_refuted.
Print Assumptions C69_chain_perfect_refuted.
