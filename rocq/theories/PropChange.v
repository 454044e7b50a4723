(** Property C92: answers move no further than the tables.  [perturbed lo hi k b b'] (ChangeSpec.v): [k]
    tables of [b'] have entries between [lo] and [hi] times those of [b], the others are the same.
    [slack lo hi k] is (hi / lo)^k.  The two answers may come from different methods. *)
From Coq Require Import Field.
From Verif Require Import Base BaseFacts NDArray Factor FactorFacts Exact Spec SpecFacts Order OrderSpec FactorSpec FactorProofs VEProof2 Checks
  Instances ExampleNets JoinTree TreeSpec JTDefault PropVE PropTree LawCount CoherentSpec CoherentProof PropCoherent ChangeSpec ChangeProof MCChecks.

(** Neither answer is more than (hi / lo)^k times the other. *)
Theorem C92_near lo hi k b b' ev Q f f' q : wf_bn b -> nonneg_bn b -> wf_bn b' -> nonneg_bn b' -> perturbed lo hi k b b' ->
  asked b ev Q -> answer b ev Q f -> answer b' ev Q f' -> is_inst b Q q ->
  (potential_at f' q <= slack lo hi k * potential_at f q)%Qc /\ (potential_at f q <= slack lo hi k * potential_at f' q)%Qc.
Proof. exact (answers_near lo hi k b b' ev Q f f' q). Qed.

(** Odds: the ratio of two answers changes by no more than that factor (stated without division). *)
Theorem C92_odds lo hi k b b' ev Q f f' q r : wf_bn b -> nonneg_bn b -> wf_bn b' -> nonneg_bn b' -> perturbed lo hi k b b' ->
  asked b ev Q -> answer b ev Q f -> answer b' ev Q f' -> is_inst b Q q -> is_inst b Q r ->
  (potential_at f' q * potential_at f r <= slack lo hi k * potential_at f q * potential_at f' r)%Qc.
Proof. exact (answers_odds lo hi k b b' ev Q f f' q r). Qed.

(** The answers are zero together. *)
Theorem C92_zero lo hi k b b' ev Q f f' q : wf_bn b -> nonneg_bn b -> wf_bn b' -> nonneg_bn b' -> perturbed lo hi k b b' ->
  asked b ev Q -> answer b ev Q f -> answer b' ev Q f' -> is_inst b Q q ->
  (potential_at f q = 0%Qc <-> potential_at f' q = 0%Qc).
Proof. exact (answers_zero lo hi k b b' ev Q f f' q). Qed.

(** Multiplying tables by a constant changes no answer: columns need not sum to one. *)
Theorem C92_scale c k b b' ev Q f f' q : wf_bn b -> nonneg_bn b -> wf_bn b' -> nonneg_bn b' -> perturbed c c k b b' ->
  asked b ev Q -> answer b ev Q f -> answer b' ev Q f' -> is_inst b Q q -> potential_at f' q = potential_at f q.
Proof. exact (answers_scale c k b b' ev Q f f' q). Qed.

(** The same for changed soft evidence; so soft evidence matters only up to a constant factor. *)
Theorem C92_evidence lo hi k b ev ev' Q f f' q : wf_bn b -> nonneg_bn b -> (0 < lo)%Qc -> (lo <= hi)%Qc -> reweighed lo hi ev ev' k (bnames b) ->
  asked b ev Q -> asked b ev' Q -> answer b ev Q f -> answer b ev' Q f' -> is_inst b Q q ->
  (potential_at f' q <= slack lo hi k * potential_at f q)%Qc /\ (potential_at f q <= slack lo hi k * potential_at f' q)%Qc.
Proof. exact (answers_near_evidence lo hi k b ev ev' Q f f' q). Qed.
Theorem C92_evidence_scale c k b ev ev' Q f f' q : wf_bn b -> nonneg_bn b -> (0 < c)%Qc -> reweighed c c ev ev' k (bnames b) ->
  asked b ev Q -> asked b ev' Q -> answer b ev Q f -> answer b ev' Q f' -> is_inst b Q q -> potential_at f' q = potential_at f q.
Proof. exact (answers_scale_evidence c k b ev ev' Q f f' q). Qed.

(** ** Examples *)
Lemma perturbed_net : perturbed (qq 5 8) (qq 5 2) 1 net net'.
Proof.
  split; [vm_compute; reflexivity|]. split; [vm_compute; discriminate|]. apply changed_table; [reflexivity|reflexivity| |do 3 apply changed_not; apply changed_none].
  apply changed_checked. vm_compute. reflexivity.
Qed.
Lemma tf_inst b v x : In x (values_of b v) -> is_inst b [v] [(v, x)].
Proof. intros H. split; [apply nodup_s_spec; cbn; reflexivity|]. split; [reflexivity|]. intros u y [E|[]]. inversion E; subst. exact H. Qed.

Example C92_near_example : wf_bn net /\ nonneg_bn net /\ wf_bn net' /\ nonneg_bn net' /\ perturbed (qq 5 8) (qq 5 2) 1 net net' /\ slack (qq 5 8) (qq 5 2) 1 = qq 4 1 /\
  asked net ev_example ["A"] /\ is_inst net ["A"] [("A", "t")] /\
  exists f f', answer net ev_example ["A"] f /\ answer net' ev_example ["A"] f' /\
    qltb 0%Qc (potential_at f [("A", "t")]) = true /\ qltb (potential_at f [("A", "t")]) (potential_at f' [("A", "t")]) = true.
Proof.
  split; [exact net_wf|]. split; [exact net_nonneg|]. split; [apply wf_bnb_ok; vm_compute; reflexivity|]. split; [apply nonnegb_ok; vm_compute; reflexivity|].
  split; [exact perturbed_net|]. split; [apply Qc_is_canon; vm_compute; reflexivity|]. split; [apply net_asked; reflexivity|]. split; [apply tf_inst; vm_compute; tauto|].
  do 2 eexists. split; [apply (by_naive _ _ _ _ listing_order); vm_compute; reflexivity|].
  split; [apply (by_bucket _ _ _ _ reversed_order None); [intros _; apply wf_graphb_ok; vm_compute; reflexivity|discriminate|vm_compute; reflexivity]|].
  split; vm_compute; reflexivity.
Qed.

(** The factor is attained: no smaller one would do for the odds of A in [net] and [net']. *)
Example C92_odds_attained : exists f f', answer net ev_example ["A"] f /\ answer net' ev_example ["A"] f' /\
  is_inst net ["A"] [("A", "t")] /\ is_inst net ["A"] [("A", "f")] /\ qltb 0%Qc (potential_at f [("A", "t")]) = true /\
  (potential_at f' [("A", "t")] * potential_at f [("A", "f")] = slack (qq 5 8) (qq 5 2) 1 * potential_at f [("A", "t")] * potential_at f' [("A", "f")])%Qc.
Proof.
  do 2 eexists. split; [apply (by_naive _ _ _ _ listing_order); vm_compute; reflexivity|]. split; [apply (by_naive _ _ _ _ listing_order); vm_compute; reflexivity|].
  split; [apply tf_inst; vm_compute; tauto|]. split; [apply tf_inst; vm_compute; tauto|]. split; [vm_compute; reflexivity|]. apply Qc_is_canon; vm_compute; reflexivity.
Qed.

(** [net] with the tables of A and D doubled. *)
Definition doubled (n : dnode) : dnode := mkN (dn_name n) (dn_values n) (dn_parents n) (dn_pdict n) (mkArr (shape (dn_cpd n)) (map (Qcmult (qq 2 1)) (data (dn_cpd n)))).
Definition net_doubled : bn := mkBN [doubled nA; nB; nC; doubled nD] ["A"; "B"; "C"; "D"] [("A", "B"); ("B", "C"); ("A", "C"); ("C", "D")].
Example C92_scale_example : perturbed (qq 2 1) (qq 2 1) 2 net net_doubled /\ wf_bn net_doubled /\ nonneg_bn net_doubled /\
  exists f f', answer net ev_example ["A"] f /\ answer net_doubled ev_example ["A"] f' /\ qltb 0%Qc (potential_at f [("A", "t")]) = true.
Proof.
  split.
  { split; [vm_compute; reflexivity|]. split; [vm_compute; discriminate|]. apply changed_table; [reflexivity|reflexivity|apply changed_checked; vm_compute; reflexivity|].
    do 2 apply changed_not. apply changed_table; [reflexivity|reflexivity|apply changed_checked; vm_compute; reflexivity|apply changed_none]. }
  split; [apply wf_bnb_ok; vm_compute; reflexivity|]. split; [apply nonnegb_ok; vm_compute; reflexivity|].
  do 2 eexists. split; [apply (by_naive _ _ _ _ listing_order); vm_compute; reflexivity|].
  split; [apply (by_naive _ _ _ _ reversed_order); vm_compute; reflexivity|]. vm_compute; reflexivity.
Qed.

(** [ev_example] with other weights for B: B = x from 1/2 to 1, B = y as before. *)
Definition ev_other : evidence := [("D", Hard "t"); ("B", Soft [qq 1 1; qq 1 1; 0%Qc])].
Definition ev_thrice : evidence := [("D", Hard "t"); ("B", Soft [qq 3 2; qq 3 1; 0%Qc])].
Lemma asked_like ev : ev_okb net ev = true -> subset (dkeys ev) (bnames net) = true -> asked net ev ["A"].
Proof. intros E I. split; [apply ev_okb_ok, E|]. split; [apply inclb_ok, I|]. split; [apply nodup_s_spec; reflexivity|apply inclb_ok; reflexivity]. Qed.
Lemma reweighed_net lo hi q' : Forall2 (fun x y => (lo * x <= y)%Qc /\ (y <= hi * x)%Qc) [qq 1 2; qq 1 1; 0%Qc] q' ->
  reweighed lo hi ev_example [("D", Hard "t"); ("B", Soft q')] 1 (bnames net).
Proof.
  intros F. apply reweighed_not; [reflexivity|]. eapply reweighed_soft; [reflexivity|reflexivity|exact F|]. do 2 (apply reweighed_not; [reflexivity|]). apply reweighed_none.
Qed.
Example C92_evidence_example : reweighed (qq 1 1) (qq 2 1) ev_example ev_other 1 (bnames net) /\ reweighed (qq 3 1) (qq 3 1) ev_example ev_thrice 1 (bnames net) /\
  asked net ev_other ["A"] /\ asked net ev_thrice ["A"] /\
  exists f g h, answer net ev_example ["A"] f /\ answer net ev_other ["A"] g /\ answer net ev_thrice ["A"] h /\
    qltb (potential_at f [("A", "t")]) (potential_at g [("A", "t")]) = true /\ qltb 0%Qc (potential_at f [("A", "t")]) = true.
Proof.
  split; [apply reweighed_net; repeat constructor; vm_compute; discriminate|]. split; [apply reweighed_net; repeat constructor; vm_compute; discriminate|].
  split; [apply asked_like; vm_compute; reflexivity|]. split; [apply asked_like; vm_compute; reflexivity|].
  do 3 eexists. split; [apply (by_naive _ _ _ _ listing_order); vm_compute; reflexivity|]. split; [apply (by_naive _ _ _ _ reversed_order); vm_compute; reflexivity|].
  split; [apply (by_naive _ _ _ _ listing_order); vm_compute; reflexivity|]. split; vm_compute; reflexivity.
Qed.

(** The bound has to be one of factors: no entry of these two networks differs by more than 1/1000, and
    the answers are 0 and 1. *)
Definition alarm (p q : Qc) : bn := mkBN [leaf "A"; mkN "B" tf [("A", tf)] ["A"] (mkArr [2; 2] [p; q; (1 - p)%Qc; (1 - q)%Qc])] ["A"; "B"] [("A", "B")].
Theorem C92_absolute_refuted : exists b b' ev f f', wf_bn b /\ nonneg_bn b /\ stochastic_bn b /\ wf_bn b' /\ nonneg_bn b' /\ stochastic_bn b' /\ asked b ev ["A"] /\
  bvars b' = bvars b /\
  (forall n n' s, In (n, n') (combine (bnodes b) (bnodes b')) -> In s (states (bvars b)) -> (entry n s - entry n' s <= qq 1 1000)%Qc /\ (entry n' s - entry n s <= qq 1 1000)%Qc) /\
  answer b ev ["A"] f /\ answer b' ev ["A"] f' /\ potential_at f [("A", "t")] = 0%Qc /\ potential_at f' [("A", "t")] = 1%Qc.
Proof.
  exists (alarm 0%Qc (qq 1 1000)), (alarm (qq 1 1000) 0%Qc), [("B", Hard "t")]. do 2 eexists.
  split; [apply wf_bnb_ok; vm_compute; reflexivity|]. split; [apply nonnegb_ok; vm_compute; reflexivity|]. split; [apply stochasticb_ok; [apply wf_bnb_ok|]; vm_compute; reflexivity|].
  split; [apply wf_bnb_ok; vm_compute; reflexivity|]. split; [apply nonnegb_ok; vm_compute; reflexivity|]. split; [apply stochasticb_ok; [apply wf_bnb_ok|]; vm_compute; reflexivity|].
  split; [split; [apply ev_okb_ok; vm_compute; reflexivity|]; split; [apply inclb_ok; reflexivity|]; split; [apply nodup_s_spec; reflexivity|apply inclb_ok; reflexivity]|].
  split; [reflexivity|]. split.
  { intros n n' s H S. set (c := fun n n' : dnode => forallb (fun s => qleb (entry n s - entry n' s) (qq 1 1000) && qleb (entry n' s - entry n s) (qq 1 1000))
      (states (bvars (alarm 0%Qc (qq 1 1000))))).
    assert (C : forallb (fun p => c (fst p) (snd p)) (combine (bnodes (alarm 0%Qc (qq 1 1000))) (bnodes (alarm (qq 1 1000) 0%Qc))) = true) by (vm_compute; reflexivity).
    rewrite forallb_forall in C. specialize (C _ H). cbn [fst snd] in C. unfold c in C. rewrite forallb_forall in C. specialize (C s S). apply andb_prop in C as [X Y].
    split; now apply qleb_true. }
  split; [apply (by_naive _ _ _ _ listing_order); vm_compute; reflexivity|]. split; [apply (by_naive _ _ _ _ listing_order); vm_compute; reflexivity|].
  split; apply Qc_is_canon; vm_compute; reflexivity.
Qed.

Print Assumptions C92_near.
Print Assumptions C92_odds.
Print Assumptions C92_zero.
Print Assumptions C92_scale.
Print Assumptions C92_evidence.
Print Assumptions C92_evidence_scale.
Print Assumptions C92_absolute_refuted.
