(** C75.  Inference over time: every sequence of calls, with and without exceptions. *)
From Verif Require Import Base BaseFacts NDArray Factor Exact Spec SpecFacts Checks Order OrderSpec JoinTree TreeSpec JTDefault Node Network NetSpec NetView NetChecks
  Dynamic DynSpec DynPure DynHeap DynPrior DynSoft DynChecks Instances ExampleNets PropDynamic FactorProofs ErrSpec TreeErrSpec LeftSpec DynUseSpec DynUse DynUse2.

Section C75.
Context {SO : SetOrder}.
Variable m : method.
Variable h : heap.
Variable d : dbnet.
Let b0 := view (mkW h (db0 d)).
Let two := view (mkW h (dtwo d)).

(** ** [uses] (DynUseSpec.v) covers every sequence of calls with evidence that is a dict without negative weights. *)
Theorem C75_every_sequence cs : trackable b0 two (dtrans d) -> objects h d -> Forall proper_call cs ->
  exists done sh waits, uses m h d (mrun m (mcreate m h d) cs) done sh waits.
Proof. intros TR OB. exact (uses_all h d TR OB m cs). Qed.

(** ** t counts the finished slices. *)
Theorem C75_time s done sh waits : trackable b0 two (dtrans d) -> objects h d -> uses m h d s done sh waits -> mt s = length done.
Proof. intros TR OB U. apply (uses_time h d TR OB m s done sh waits U). Qed.

(** ** set_evidence raises exactly for evidence with a fault; its keyword arguments play no part. *)
Theorem C75_set_evidence s done sh waits ev kw x : trackable b0 two (dtrans d) -> objects h d -> uses m h d s done sh waits -> proper ev ->
  (snd (mexec m s (MEvidence ev kw)) = Err x <-> faulty b0 two (dtrans d) m done ev None x).
Proof. intros TR OB. exact (uses_evidence h d TR OB m s done sh waits ev kw x). Qed.

(** ** unroll raises exactly if it sets evidence, and that has a fault or SoftEvidenceExact is given a keyword. *)
Theorem C75_unroll s done sh waits ev kw x : trackable b0 two (dtrans d) -> objects h d -> uses m h d s done sh waits -> proper ev ->
  (snd (mexec m s (MUnroll ev kw)) = Err x <->
   sets waits ev /\ (refused m kw /\ x = TypeError \/ ~ refused m kw /\ faulty b0 two (dtrans d) m done ev kw x)).
Proof. intros TR OB. exact (uses_unroll h d TR OB m s done sh waits ev kw x). Qed.

(** ** Before any evidence is set, marginals raises AttributeError ... *)
Theorem C75_nothing s done waits Q : trackable b0 two (dtrans d) -> objects h d -> uses m h d s done None waits ->
  done = [] /\ snd (dmarginals s Q) = Err AttributeError.
Proof. intros TR OB. exact (uses_nothing h d TR OB m s done waits Q). Qed.

(** ** ... and afterwards it reports the posterior in the network of its slice, whatever was raised before. *)
Theorem C75_marginals s done e evs waits Q : trackable b0 two (dtrans d) -> objects h d -> uses m h d s done (Some (e :: evs)) waits ->
  (evs = done \/ done = e :: evs) /\
  exists t, mtree s = Some (Nat.eqb (length evs) 0, t) /\
  (NoDup Q -> answers t Q -> exists f, snd (dmarginals s Q) = Ok f /\ reports (read_net b0 two (dtrans d) m evs) f Q (posterior (read_net b0 two (dtrans d) m evs) e)) /\
  (forall x, snd (dmarginals s Q) = Err x <-> x = ValueError /\ ~ answers t Q) /\
  forall n, In n (bnodes (slice_base b0 two (length evs))) -> incl Q (dn_name n :: map fst (dn_parents n)) -> answers t Q.
Proof. intros TR OB. exact (uses_answer h d TR OB m s done e evs waits Q). Qed.
End C75.

(** ** PriorFeedbackExact filters exactly, after every sequence of calls, if what is taken over is independent. *)
Theorem C75_filtering {SO : SetOrder} h d s done e evs waits n Q :
  let b0 := view (mkW h (db0 d)) in let two := view (mkW h (dtwo d)) in
  trackable b0 two (dtrans d) -> objects h d -> uses PriorFeedback h d s done (Some (e :: evs)) waits ->
  all_factorised b0 two (dtrans d) evs ->
  In n (bnodes (slice_base b0 two (length evs))) -> NoDup Q -> incl Q (dn_name n :: map fst (dn_parents n)) ->
  exists f, snd (dmarginals s Q) = Ok f /\ reports (slice_base b0 two (length evs)) f Q (filtered b0 two (dtrans d) (e :: evs)).
Proof.
  intros b0 two TR OB U AF Hn ND I. destruct (uses_answer h d TR OB PriorFeedback s done e evs waits Q U) as (_ & t & _ & A & _ & F).
  destruct (A ND (F n Hn I)) as (f & Ef & R). exists f. split; [exact Ef|].
  destruct (ui_shown _ _ _ _ _ _ _ (uses_inv h d TR OB PriorFeedback s done _ waits U)) as (_ & L & _).
  assert (W2 : wf_bn two) by (destruct (tr_two _ _ _ TR) as (o & _ & X); apply X).
  assert (X := slice_exact b0 two (dtrans d) (tr_wired _ _ _ TR) W2 (tr_nn0 _ _ _ TR) (tr_nn _ _ _ TR) evs e L AF).
  cbn [read_net] in R. rewrite believed_slice in R.
  exact (reports_values _ _ f Q _ _ (slice_values_of b0 two (dtrans d) evs) X R).
Qed.

(** ** Examples: evidence, then evidence with a fault in its second item, then unroll: the slice is taken to
    have observed the first item. *)
Definition half_bad : evidence := [("rain", Hard "t"); ("wet", Hard "maybe")].
Lemma hard_proper ev : NoDup (dkeys ev) -> hard_only ev -> proper (Some ev).
Proof. intros ND H. split; [exact ND|]. intros v q X. destruct (H v _ X) as (y & E). discriminate. Qed.
Lemma half_bad_proper : proper (Some half_bad).
Proof. apply hard_proper; [apply nodup_s_spec; reflexivity|]. intros v x [E|[E|[]]]; injection E as <- <-; eauto. Qed.
Lemma wet_proper : proper (Some wet).
Proof. apply hard_proper; [apply nodup_s_spec; reflexivity|]. intros v x [E|[]]; injection E as <- <-; eauto. Qed.

Lemma rain_item v x z : In v ["rain"; "wet"] -> In x tf -> ~ item_fault rain0 false v (Hard x) z.
Proof.
  intros Hv Hx F. inversion F as [A|A B|? ? A]; [apply A; exact Hv| |discriminate]. apply B.
  destruct Hv as [<-|[<-|[]]]; exact Hx.
Qed.

Example C75_example : let SO := listing_order in let m := PriorFeedback in
  let s1 := fst (mexec m (mcreate m rain_h rain_d) (MEvidence (Some wet) None)) in
  let s2 := fst (mexec m s1 (MEvidence (Some half_bad) None)) in
  let s3 := fst (mexec m s2 (MUnroll None None)) in
  trackable (view (mkW rain_h (db0 rain_d))) (view (mkW rain_h (dtwo rain_d))) (dtrans rain_d) /\ objects rain_h rain_d /\
  uses m rain_h rain_d s1 [] (Some [wet]) true /\
  faulty (view (mkW rain_h (db0 rain_d))) (view (mkW rain_h (dtwo rain_d))) (dtrans rain_d) m [] (Some half_bad) None ValueError /\
  uses m rain_h rain_d s2 [] (Some [[("rain", Hard "t")]]) true /\
  uses m rain_h rain_d s3 [[("rain", Hard "t")]] (Some [[("rain", Hard "t")]]) false /\
  all_factorised (view (mkW rain_h (db0 rain_d))) (view (mkW rain_h (dtwo rain_d))) (dtrans rain_d) [[("rain", Hard "t")]].
Proof.
  cbv zeta. rewrite rain_v0, rain_v1. split; [exact rain_trackable|]. split; [exact rain_objects|].
  assert (U1 : uses (SO := listing_order) PriorFeedback rain_h rain_d (fst (mexec (SO := listing_order) PriorFeedback (mcreate PriorFeedback rain_h rain_d) (MEvidence (Some wet) None))) [] (Some [wet]) true).
  { eapply (U_evidence (SO := listing_order)); [apply U_create|exact wet_proper| |].
    - cbv zeta. rewrite rain_v0, rain_v1. intros x F. unfold faulty in F. cbn [read_net believed read_post read_ev given] in F.
      inversion F as [v P|l v e l' y K E N G]; [discriminate|]. destruct l as [|p l]; [|destruct l; discriminate]. injection E as <- <- <-.
      revert G. apply rain_item; cbn; auto.
    - cbv zeta. rewrite rain_v0, rain_v1. unfold left_by. cbn [read_net believed read_post read_ev given].
      apply (L_front _ _ _ wet []); [discriminate|reflexivity| |exact I|apply read_hard, read_nil].
      intros w y z [E|[]]. injection E as <- <-. apply rain_item; cbn; auto. }
  split; [exact U1|].
  assert (B : improper rain0 "wet" (Hard "maybe")) by (vm_compute; intros H; repeat (destruct H as [H|H]; [discriminate|]); exact H).
  assert (F : faulty rain0 rain1 (dtrans rain_d) PriorFeedback [] (Some half_bad) None ValueError).
  { unfold faulty. cbn [read_net believed read_post read_ev given]. apply (E_item _ _ _ [("rain", Hard "t")] "wet" (Hard "maybe") []); [discriminate|reflexivity| |].
    - intros w y z [E|[]]. injection E as <- <-. apply rain_item; cbn; auto.
    - apply I_improper; [cbn; auto|exact B]. }
  split; [exact F|].
  match goal with |- ?G /\ _ => assert (U2 : G) end.
  { eapply (U_evidence_raises (SO := listing_order)); [exact U1|exact half_bad_proper| |]; cbv zeta; rewrite rain_v0, rain_v1; [exact F|].
    unfold left_by. cbn [read_net believed read_post read_ev given].
    apply (L_front _ _ _ [("rain", Hard "t")] [("wet", Hard "maybe")]); [discriminate|reflexivity| | |apply read_hard, read_nil].
    - intros w y z [E|[]]. injection E as <- <-. apply rain_item; cbn; auto.
    - exists ValueError. apply I_improper; [cbn; auto|exact B]. }
  split; [exact U2|]. split; [apply (U_unroll_waiting (SO := listing_order)), U2|].
  split; [|exact I]. eapply one_factorised. reflexivity.
Qed.

Example C75_refused_example : let SO := listing_order in refused SoftEvidence (Some true) /\ proper (Some wet) /\
  uses SoftEvidence rain_h rain_d (mcreate SoftEvidence rain_h rain_d) [] None false /\ sets false (Some wet).
Proof. cbv zeta. split; [split; [reflexivity|discriminate]|]. split; [exact wet_proper|]. split; [apply U_create|left; reflexivity]. Qed.

Print Assumptions C75_every_sequence.
Print Assumptions C75_time.
Print Assumptions C75_set_evidence.
Print Assumptions C75_unroll.
Print Assumptions C75_nothing.
Print Assumptions C75_marginals.
Print Assumptions C75_filtering.
