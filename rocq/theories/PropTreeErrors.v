(** C72.  Which calls on a FactorTree raise, and what. *)
From Coq Require Import Permutation.
From Verif Require Import Base BaseFacts NDArray Factor Exact Spec Order OrderSpec JoinTree TreeSpec Instances ExampleNets Checks FactorProofs JTDefault PropVE PropTree ErrSpec TreeErrSpec TreeErrProof.

(** ** create_jointree raises exactly for orders that name an unknown node, or a node twice; orders that
    leave nodes out do not. *)
Theorem C72_create {SO : SetOrder} b order e : wf_bn b -> wf_graph b -> nonneg_bn b ->
  (create_jointree b order = Err e <-> e = NetworkXError /\ exists o, order = Some o /\ ~ (NoDup o /\ incl o (bnames b))).
Proof. exact (create_outcome b order e). Qed.

(** ** marginals, after any history that is expected to leave the tree in a known state. *)
Theorem C72_marginals {SO : SetOrder} b0 t k Q e : reaches b0 t (Some k) ->
  ((exists f, snd (tmarginals t Q) = Ok f) <-> answers t Q) /\ (snd (tmarginals t Q) = Err e <-> e = ValueError /\ ~ answers t Q).
Proof. exact (marginals_outcome b0 t k Q e). Qed.

(** ** set_evidence, after any history.  [evidence_fault] (TreeErrSpec.v) lists the faults in the order in which
    they are found. *)
Theorem C72_set_evidence {SO : SetOrder} b0 t k b ev post e :
  reaches b0 t k -> same_arcs b0 b -> wf_bn b -> nonneg_bn b -> NoDup (dkeys ev) -> weights_ok ev ->
  (snd (set_evidence b ev post t) = Err e <-> evidence_fault b post ev e).
Proof. exact (set_evidence_outcome b0 t k b ev post e). Qed.

(** ** Examples *)
Example C72_create_example : wf_bn net /\ wf_graph net /\ nonneg_bn net /\
  (exists o, Some ["A"; "B"; "A"] = Some o /\ ~ (NoDup o /\ incl o (bnames net))) /\
  (exists o, Some ["A"; "Nope"] = Some o /\ ~ (NoDup o /\ incl o (bnames net))) /\
  NoDup ["C"; "A"] /\ incl ["C"; "A"] (bnames net).
Proof.
  split; [exact net_wf|]. split; [apply wf_graphb_ok; vm_compute; reflexivity|]. split; [exact net_nonneg|].
  split; [exists ["A"; "B"; "A"]; split; [reflexivity|]; intros [N _]; inversion N as [|? ? X _]; apply X; cbn; tauto|].
  split.
  - exists ["A"; "Nope"]. split; [reflexivity|]. intros [_ I]. specialize (I "Nope" (or_intror (or_introl eq_refl))). vm_compute in I.
    repeat (destruct I as [I|I]; [discriminate|]). exact I.
  - split; [apply nodup_s_spec; reflexivity|apply inclb_ok; reflexivity].
Qed.

Example C72_marginals_example : let t := the_tree (SO := listing_order) in reaches (SO := listing_order) net t (Some (net, [], false)) /\ answers t ["A"; "A"] /\ ~ answers t ["A"; "Nope"].
Proof.
  cbv zeta. split; [exact the_tree_reached|]. split; [apply (the_tree_answers (SO := listing_order)); left; reflexivity|].
  intros A. destruct (proj2 (proj1 (C72_marginals (SO := listing_order) net _ _ ["A"; "Nope"] ValueError the_tree_reached)) A) as (f & E). vm_compute in E. discriminate.
Qed.

Example C72_set_evidence_example : 
  let faults := [([("A", Hard "t"); ("C", Hard "maybe")], false, ValueError); ([("A", Hard "t"); ("Nope", Hard "t")], false, PlainException);
    ([("A", Hard "t"); ("Nope", Hard "t")], true, ValueError); ([("B", Soft [1%Qc]); ("Nope", Hard "t")], false, ValueError);
    ([("C", Hard "t"); ("A", Soft [0%Qc; 0%Qc])], true, NonFinite)] in
  Forall (fun x => NoDup (dkeys (fst (fst x))) /\ weights_ok (fst (fst x)) /\ evidence_fault net (snd (fst x)) (fst (fst x)) (snd x)) faults /\
  forall e, ~ evidence_fault net false [("A", Soft [0%Qc; 0%Qc])] e.
Proof.
  cbv zeta. assert (R := the_tree_reached (SO := listing_order)).
  assert (G : forall ev post e, NoDup (dkeys ev) -> weights_ok ev -> snd (set_evidence (SO := listing_order) net ev post (the_tree (SO := listing_order))) = Err e -> evidence_fault net post ev e).
  { intros ev post e N W. apply (C72_set_evidence net _ _ net ev post e R eq_refl net_wf net_nonneg N W). }
  assert (W0 : forall v q, In (v, Soft q) [("A", Soft [0%Qc; 0%Qc])] -> Forall (fun x => 0 <= x)%Qc q).
  { intros v q [X|[]]. injection X as <- <-. repeat (apply Forall_cons; [apply qleb_true; vm_compute; reflexivity|]). apply Forall_nil. }
  split.
  - repeat (apply Forall_cons; [cbn [fst snd]|]); [..|apply Forall_nil];
      (match goal with |- NoDup (dkeys ?ev) /\ _ /\ _ => assert (N : NoDup (dkeys ev)) by (apply nodup_s_spec; reflexivity); split; [exact N|] end);
      (match goal with |- weights_ok ?ev /\ _ => assert (W : weights_ok ev) end;
      [intros v q X; repeat (destruct X as [X|X]; [try discriminate X; injection X as <- <-; repeat (apply Forall_cons; [apply qleb_true; vm_compute; reflexivity|]); apply Forall_nil|]); destruct X
      |split; [exact W|apply (G _ _ _ N W); vm_compute; reflexivity]]).
  - intros e F. apply (C72_set_evidence net _ _ net _ false e R eq_refl net_wf net_nonneg) in F; [vm_compute in F; discriminate|apply nodup_s_spec; reflexivity|exact W0].
Qed.

Print Assumptions C72_create.
Print Assumptions C72_marginals.
Print Assumptions C72_set_evidence.
