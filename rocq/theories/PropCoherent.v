(** Property C89: answers to different queries fit together.  [answer b ev Q f] (CoherentSpec.v):
    [f] is what naive_marginals, bucket_marginals with any elimination order, or a join tree in
    one piece returned for the query [Q]; the answers compared may come from different methods. *)
From Verif Require Import Base BaseFacts NDArray Factor FactorFacts Exact Spec SpecFacts Order OrderSpec FactorSpec FactorProofs VEProof2 Checks
  Instances ExampleNets JoinTree TreeSpec JTDefault PropVE PropTree CoherentSpec CoherentProof.

(** Summing a joint answer over one variable gives the answer for the others. *)
Theorem C89_marginal b ev v Q f g q : wf_bn b -> nonneg_bn b -> asked b ev (v :: Q) -> answer b ev (v :: Q) f -> answer b ev Q g -> is_inst b Q q ->
  qsum (map (fun x => potential_at f ((v, x) :: q)) (values_of b v)) = potential_at g q.
Proof. intros WB NN. exact (answers_out b WB NN ev v Q f g q). Qed.

(** Chain rule: P(v = x, q | ev) = P(v = x | ev) P(q | ev, v = x), also if v = x is impossible. *)
Theorem C89_chain b ev ev' v x Q f g h q : wf_bn b -> nonneg_bn b ->
  asked b ev (v :: Q) -> observes v x ev ev' -> NoDup (dkeys ev') -> In x (values_of b v) ->
  answer b ev (v :: Q) f -> answer b ev [v] g -> answer b ev' Q h -> is_inst b Q q ->
  potential_at f ((v, x) :: q) = (potential_at g [(v, x)] * potential_at h q)%Qc.
Proof. intros WB NN. exact (answers_chain b WB NN ev ev' v x Q f g h q). Qed.

(** Law of total probability. *)
Theorem C89_total b ev (evx : string -> evidence) v Q g k (h : string -> factor) q : wf_bn b -> nonneg_bn b -> asked b ev (v :: Q) ->
  (forall x, In x (values_of b v) -> observes v x ev (evx x) /\ NoDup (dkeys (evx x)) /\ answer b (evx x) Q (h x)) ->
  answer b ev [v] g -> answer b ev Q k -> is_inst b Q q ->
  qsum (map (fun x => potential_at g [(v, x)] * potential_at (h x) q)%Qc (values_of b v)) = potential_at k q.
Proof. intros WB NN. exact (answers_total b WB NN ev evx v Q g k h q). Qed.

(** Bayes' rule. *)
Theorem C89_bayes b ev ev_u ev_v u x v y fu fv fuv fvu : wf_bn b -> nonneg_bn b -> u <> v -> asked b ev [u; v] ->
  observes u x ev ev_u -> NoDup (dkeys ev_u) -> In x (values_of b u) -> observes v y ev ev_v -> NoDup (dkeys ev_v) -> In y (values_of b v) ->
  answer b ev [u] fu -> answer b ev [v] fv -> answer b ev_u [v] fvu -> answer b ev_v [u] fuv ->
  (potential_at fuv [(u, x)] * potential_at fv [(v, y)] = potential_at fvu [(v, y)] * potential_at fu [(u, x)])%Qc.
Proof. intros WB NN. exact (answers_bayes b WB NN ev ev_u ev_v u x v y fu fv fuv fvu). Qed.

(** An observed variable has its observed value, if the evidence is possible. *)
Theorem C89_observed b ev v x f y : wf_bn b -> nonneg_bn b ->
  asked b ev [v] -> dget v ev = Some (Hard x) -> mass b ev [] <> 0%Qc -> answer b ev [v] f -> In y (values_of b v) ->
  potential_at f [(v, y)] = if String.eqb y x then 1%Qc else 0%Qc.
Proof. intros WB NN. exact (answers_sure b WB NN ev v x f y). Qed.

(** ** Examples *)
Definition seen (x : string) : evidence := ("A", Hard x) :: ev_example.
Lemma seen_observes x : observes "A" x ev_example (seen x).
Proof.
  split; [reflexivity|]. split; [reflexivity|]. intros u NE. cbn [seen dget]. destruct (String.eqb_spec u "A") as [->|_]; [destruct (NE eq_refl)|reflexivity].
Qed.
Lemma net_asked Q : nodup_s Q = true -> subset Q (bnames net) = true -> asked net ev_example Q.
Proof. intros N I. split; [exact net_ev|]. split; [exact net_ev_keys|]. split; [apply nodup_s_spec, N|apply inclb_ok, I]. Qed.

Example C89_example : wf_bn net /\ nonneg_bn net /\ asked net ev_example ["A"; "C"] /\
  (forall x, observes "A" x ev_example (seen x) /\ NoDup (dkeys (seen x))) /\ is_inst net ["C"] [("C", "t")] /\ In "t" (values_of net "A") /\
  exists f g h, answer net ev_example ["A"; "C"] f /\ answer net ev_example ["A"] g /\ answer net (seen "t") ["C"] h /\
    qltb 0%Qc (potential_at f [("A", "t"); ("C", "t")]) = true /\ qltb (potential_at h [("C", "t")]) 1%Qc = true /\
    potential_at h [("C", "t")] <> potential_at f [("A", "t"); ("C", "t")] /\ mass net (seen "t") [] <> 0%Qc.
Proof.
  split; [exact net_wf|]. split; [exact net_nonneg|]. split; [apply net_asked; reflexivity|].
  split; [intros x; split; [apply seen_observes|apply nodup_s_spec; reflexivity]|].
  split; [split; [apply nodup_s_spec; reflexivity|]; split; [reflexivity|]; intros v x [E|[]]; inversion E; vm_compute; tauto|]. split; [vm_compute; tauto|].
  do 3 eexists. split; [apply (by_naive _ _ _ _ listing_order); vm_compute; reflexivity|].
  split; [apply (by_bucket _ _ _ _ reversed_order None); [intros _; apply wf_graphb_ok; vm_compute; reflexivity|discriminate|vm_compute; reflexivity]|].
  split; [apply (by_bucket _ _ _ _ listing_order (Some ["B"; "D"; "C"; "A"])); [intros [E|E]; discriminate|intros l E _; inversion E; apply permb_ok; reflexivity|vm_compute; reflexivity]|].
  split; [vm_compute; reflexivity|]. split; [vm_compute; reflexivity|]. split; intros E; apply (f_equal this) in E; vm_compute in E; discriminate.
Qed.

(** An answer of a join tree. *)
Example C89_tree_example : exists f, answer net ev_example ["A"; "C"] f /\ snd (tmarginals (SO := listing_order) (fst (set_evidence (SO := listing_order) net ev_example false (the_tree (SO := listing_order)))) ["A"; "C"]) = Ok f.
Proof.
  eexists. split.
  - apply (by_tree _ _ _ _ listing_order ["D"; "A"; "B"; "C"] None (the_tree (SO := listing_order)) (fst (set_evidence (SO := listing_order) net ev_example false (the_tree (SO := listing_order))))).
    + exact net_suits.
    + vm_compute. reflexivity.
    + vm_compute. reflexivity.
    + apply the_tree_answers. left. reflexivity.
    + vm_compute. reflexivity.
    + vm_compute. reflexivity.
  - vm_compute. reflexivity.
Qed.

(** Impossible evidence: even the observed value gets the number 0. *)
Theorem C89_impossible_refuted : exists b ev v x f, wf_bn b /\ nonneg_bn b /\ asked b ev [v] /\ dget v ev = Some (Hard x) /\ answer b ev [v] f /\
  In x (values_of b v) /\ potential_at f [(v, x)] = 0%Qc.
Proof.
  exists (mkBN [mkN "A" tf [] [] (mkArr [2] [1%Qc; 0%Qc])] ["A"] []), [("A", Hard "f")], "A", "f". eexists.
  split; [apply wf_bnb_ok; vm_compute; reflexivity|]. split; [apply nonnegb_ok; vm_compute; reflexivity|].
  split; [split; [apply ev_okb_ok; vm_compute; reflexivity|]; split; [apply inclb_ok; reflexivity|]; split; [apply nodup_s_spec; reflexivity|apply inclb_ok; reflexivity]|].
  split; [reflexivity|]. split; [apply (by_naive _ _ _ _ listing_order); vm_compute; reflexivity|]. split; [vm_compute; tauto|]. qc.
Qed.

Print Assumptions C89_marginal.
Print Assumptions C89_chain.
Print Assumptions C89_total.
Print Assumptions C89_bayes.
Print Assumptions C89_observed.
Print Assumptions C89_impossible_refuted.
