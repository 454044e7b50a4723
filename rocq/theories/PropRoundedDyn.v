(** C78: filtering over time in rounded arithmetic. *)
From Verif Require Import Base BaseFacts NDArray Factor Exact Spec SpecFacts Checks Order OrderSpec JoinTree TreeSpec JTDefault JTHistory Node Network NetSpec NetView NetChecks
  Dynamic DynSpec DynPure DynHeap DynPrior DynSoft DynChecks DynUseSpec DynUse Instances ExampleNets PropDynamic FactorProofs
  Rounded RoundedSpec RoundedProof RoundedTop RoundedTree RoundedTreeSpec RoundedTreeProof RoundedDouble RoundedDyn RoundedDynSpec RoundedDynPure RoundedDynProof RoundedDynTop PropRounded.

(** With the exact operations the program is that of Dynamic.v. *)
Theorem C78_same_program {SO : SetOrder} s ev kw Q : kw <> Some true ->
  let create := create_jointree_by fmul in let reset := reset_factors_by fmul in
  let evid := set_evidence_by fmul marginalize1 finvert in let query := tmarginals_by fmul marginalize1 finvert normalize in
  dset_evidence_by create reset evid s ev = dset_evidence PriorFeedback s ev kw /\
  dunroll_by create reset evid query s ev = dunroll PriorFeedback s ev kw /\
  dmarginals_by query s Q = dmarginals s Q.
Proof. exact (dyn_by_exact s ev kw Q). Qed.

Section C78.
Context {RD : Rounding} {AD : Adding} {SO : SetOrder}.
Variable h : heap.
Variable d : dbnet.
Let b0 := view (mkW h (db0 d)).
Let two := view (mkW h (dtwo d)).

(** Legal evidence is accepted, unroll succeeds, and t counts the slices. *)
Theorem C78_succeeds s done p sh ev : trackable b0 two (dtrans d) -> objects h d -> rsession (fitting_evidence b0 two) h d s done p sh ->
  mt s = length done /\ (fitting_evidence b0 two done (given ev) ->
    snd (rdset_evidence s ev) = Ok tt /\ (p <> Spoiled \/ ev <> None -> snd (rdunroll s ev) = Ok tt)).
Proof. intros TR OB S. split; [exact (rounded_time h d TR OB s done p sh S)|]. exact (rounded_succeeds h d TR OB s done p sh ev S). Qed.

(** Every answer is within a factor of (1 + ulp)^K of what exact arithmetic gives (C75),
    and asking changes nothing. *)
Theorem C78_answers s done p e evs n Q : trackable b0 two (dtrans d) -> objects h d -> rsession (fitting_evidence b0 two) h d s done p (Some (e :: evs)) ->
  In n (bnodes (slice_base b0 two (length evs))) -> NoDup Q -> incl Q (dn_name n :: map fst (dn_parents n)) ->
  exists f, rdmarginals s Q = (s, Ok f) /\ reports (slice_base b0 two (length evs)) f Q (potential_at f) /\
    forall q, is_inst (slice_base b0 two (length evs)) Q q ->
      close (filter_errors b0 two (dtrans d) evs Q e) (posterior (believed b0 two (dtrans d) evs) e q) (potential_at f q).
Proof. intros TR OB. rewrite believed_slice. exact (rounded_answers h d TR OB s done p e evs n Q). Qed.

(** With one transition: within a factor of (1 + ulp)^K of the filtered probability, and
    K grows linearly with the number of slices. *)
Theorem C78_filtering s done p e evs n Q v u : trackable b0 two (dtrans d) -> objects h d -> rsession (fitting_evidence b0 two) h d s done p (Some (e :: evs)) ->
  dtrans d = [(v, u)] ->
  In n (bnodes (slice_base b0 two (length evs))) -> NoDup Q -> incl Q (dn_name n :: map fst (dn_parents n)) ->
  exists f, rdmarginals s Q = (s, Ok f) /\ reports (slice_base b0 two (length evs)) f Q (potential_at f) /\
    forall q, is_inst (slice_base b0 two (length evs)) Q q ->
      close (filter_errors b0 two (dtrans d) evs Q e) (filtered b0 two (dtrans d) (e :: evs) q) (potential_at f q).
Proof.
  intros TR OB S E Hn ND I. destruct (rounded_answers h d TR OB s done p e evs n Q S Hn ND I) as (f & E1 & R & C). exists f. split; [exact E1|]. split; [exact R|]. intros q Hq.
  destruct (ri_shown _ _ _ _ _ _ (rounded_sessions h d TR OB _ _ _ _ S)) as (_ & L & _).
  assert (W2 : wf_bn two) by (destruct (tr_two _ _ _ TR) as (o & _ & U); apply U).
  rewrite <- (slice_exact b0 two (dtrans d) (tr_wired _ _ _ TR) W2 (tr_nn0 _ _ _ TR) (tr_nn _ _ _ TR) evs e L); [apply C, Hq|].
  clear - E. induction evs as [|e' evs IH]; [exact Logic.I|]. split; [|exact IH]. apply (one_factorised b0 two (dtrans d) v u (e' :: evs) E).
Qed.

Theorem C78_linear evs Q e v u K : dtrans d = [(v, u)] ->
  (forall n R x, R = Q \/ R = [u] -> In x (e :: evs) -> slice_errors b0 two n R x <= K) ->
  filter_errors b0 two (dtrans d) evs Q e <= (2 * length evs + 1) * K.
Proof.
  intros E H. unfold filter_errors. assert (X : handed_errors b0 two (dtrans d) evs <= length evs * K).
  { assert (H' : forall n x, In x evs -> slice_errors b0 two n [u] x <= K) by (intros n x Hx; apply H; [auto|right; exact Hx]). clear H. rewrite E.
    induction evs as [|x l IH]; [cbn; lia|]. cbn [handed_errors map sumn fold_right length snd]. specialize (IH (fun n y Hy => H' n y (or_intror Hy))). specialize (H' (length l) x (or_introl eq_refl)). lia. }
  specialize (H (length evs) Q e (or_introl eq_refl) (or_introl eq_refl)). lia.
Qed.

(** Zeros are exact. *)
Theorem C78_zeros s done p e evs n Q : trackable b0 two (dtrans d) -> objects h d -> rsession (fitting_evidence b0 two) h d s done p (Some (e :: evs)) ->
  In n (bnodes (slice_base b0 two (length evs))) -> NoDup Q -> incl Q (dn_name n :: map fst (dn_parents n)) ->
  exists f, rdmarginals s Q = (s, Ok f) /\ forall q, is_inst (slice_base b0 two (length evs)) Q q ->
    (potential_at f q = 0%Qc <-> posterior (believed b0 two (dtrans d) evs) e q = 0%Qc).
Proof.
  intros TR OB S Hn ND I. destruct (C78_answers s done p e evs n Q TR OB S Hn ND I) as (f & E & _ & C). exists f. split; [exact E|]. intros q Hq. symmetry. exact (close_zero _ _ _ (C q Hq)).
Qed.

(** The absolute error. *)
Theorem C78_absolute s done p e evs n Q : trackable b0 two (dtrans d) -> objects h d -> rsession (fitting_evidence b0 two) h d s done p (Some (e :: evs)) ->
  In n (bnodes (slice_base b0 two (length evs))) -> NoDup Q -> incl Q (dn_name n :: map fst (dn_parents n)) ->
  (qnat (filter_errors b0 two (dtrans d) evs Q e) * ulp <= 1 / (1 + 1))%Qc ->
  exists f, rdmarginals s Q = (s, Ok f) /\ forall q, is_inst (slice_base b0 two (length evs)) Q q ->
    (potential_at f q - posterior (believed b0 two (dtrans d) evs) e q <= (1 + 1) * (qnat (filter_errors b0 two (dtrans d) evs Q e) * ulp))%Qc /\
    (posterior (believed b0 two (dtrans d) evs) e q - potential_at f q <= (1 + 1) * (qnat (filter_errors b0 two (dtrans d) evs Q e) * ulp))%Qc.
Proof.
  intros TR OB S Hn ND I Sm. destruct (C78_answers s done p e evs n Q TR OB S Hn ND I) as (f & E & _ & C). exists f. split; [exact E|]. intros q Hq.
  destruct (ri_shown _ _ _ _ _ _ (rounded_sessions h d TR OB _ _ _ _ S)) as (F & L & _). destruct (sb_fits h d evs e F) as [EV _].
  assert (P1 : (posterior (believed b0 two (dtrans d) evs) e q <= 1)%Qc).
  { rewrite believed_slice. apply posterior_le_1; [apply (sb_wf h d TR)|apply (sb_nonneg h d TR), L|exact EV]. }
  destruct (close_abs _ _ _ (C q Hq) P1) as [X Y]. assert (G := power_linear _ Sm). set (k := filter_errors b0 two (dtrans d) evs Q e) in *.
  assert (M : (power (1 + ulp) k - 1 <= (1 + 1) * (qnat k * ulp))%Qc).
  { replace ((1 + 1) * (qnat k * ulp))%Qc with (1 + (1 + 1) * (qnat k * ulp) - 1)%Qc by ring. apply Qcplus_le_compat; [exact G|apply Qcle_refl]. }
  split; eapply Qcle_trans; eassumption.
Qed.
End C78.

(** Doubles, with tables of doubles: a session with failing calls and queries. *)
Definition double_bn (b : bn) : bn := mkBN (map double_node (bnodes b)) (border b) (bedges b).
Definition drain0 : bn := double_bn rain0.
Definition drain1 : bn := double_bn rain1.
Definition drain : heap * dbnet := dbn_of drain0 drain1 [("old", "rain")].
Definition drain_h : heap := fst drain.
Definition drain_d : dbnet := snd drain.
Lemma drain_v0 : view (mkW drain_h (db0 drain_d)) = drain0. Proof. apply view_0; vm_compute; reflexivity. Qed.
Lemma drain_v1 : view (mkW drain_h (dtwo drain_d)) = drain1. Proof. apply view_two; vm_compute; reflexivity. Qed.
Lemma drain_objects : objects drain_h drain_d.
Proof.
  apply side_objects; [apply world_of_reached; vm_compute; reflexivity|apply world_of_reached; vm_compute; reflexivity|].
  intros v p [E|[]]. injection E as <- <-. vm_compute. auto.
Qed.
Lemma drain_trackable : trackable drain0 drain1 [("old", "rain")].
Proof. apply (trackableb_ok _ _ _ ["rain"; "wet"] ["old"; "rain"; "wet"]). vm_compute. reflexivity. Qed.
Lemma drain_fits_wet done : fitting_evidence drain0 drain1 done wet.
Proof. destruct done; apply fittingb_ok; vm_compute; reflexivity. Qed.
Lemma drain_fits_dry done : fitting_evidence drain0 drain1 done dry.
Proof. destruct done; apply fittingb_ok; vm_compute; reflexivity. Qed.

Definition dstart : mstate := rdcreate drain_h drain_d.
Definition dcalls : mstate :=
  let s1 := fst (@rdunroll double pairwise listing_order dstart (Some wet)) in
  let s2 := fst (@rdset_evidence double pairwise listing_order s1 (Some [("wet", Hard "t"); ("nope", Hard "t")])) in
  let s3 := fst (@rdset_evidence double pairwise listing_order s2 (Some dry)) in
  let s4 := fst (@rdunroll double pairwise listing_order s3 None) in
  fst (@rdmarginals double pairwise listing_order (fst (@rdset_evidence double pairwise listing_order s4 (Some wet))) ["rain"]).

Example C78_example : let b0 := view (mkW drain_h (db0 drain_d)) in let two := view (mkW drain_h (dtwo drain_d)) in
  trackable b0 two (dtrans drain_d) /\ objects drain_h drain_d /\ dtrans drain_d = [("old", "rain")] /\
  @rsession double pairwise listing_order (fitting_evidence b0 two) drain_h drain_d dcalls [dry; wet] (Pending wet) (Some [wet; dry; wet]) /\
  filter_errors b0 two (dtrans drain_d) [dry; wet] ["rain"] wet = 1927 /\
  (forall n R x, R = ["rain"] \/ R = ["rain"] -> In x [wet; dry; wet] -> slice_errors b0 two n R x <= 507) /\
  (qnat (filter_errors b0 two (dtrans drain_d) [dry; wet] ["rain"] wet) * @ulp double <= 1 / (1 + 1))%Qc.
Proof.
  cbv zeta. rewrite drain_v0, drain_v1. split; [exact drain_trackable|]. split; [exact drain_objects|]. split; [reflexivity|].
  split.
  { unfold dcalls. set (ok := fitting_evidence drain0 drain1).
    assert (H1 := @R_unroll double pairwise listing_order ok drain_h drain_d _ _ _ _ (Some wet) (@R_create double pairwise listing_order ok drain_h drain_d) (or_introl eq_refl) (drain_fits_wet [])).
    assert (H2 : @rsession double pairwise listing_order ok drain_h drain_d (fst (@rdset_evidence double pairwise listing_order (fst (@rdunroll double pairwise listing_order dstart (Some wet))) (Some [("wet", Hard "t"); ("nope", Hard "t")]))) [wet] Nothing None).
    { eapply (@R_failed double pairwise listing_order ok drain_h drain_d _ [wet] Nothing _ _ PlainException H1). vm_compute. reflexivity. }
    assert (H3 := @R_evidence double pairwise listing_order ok drain_h drain_d _ _ _ _ (Some dry) H2 (drain_fits_dry [wet])).
    assert (H4 := @R_unroll_pending double pairwise listing_order ok drain_h drain_d _ _ _ _ H3).
    assert (H5 := @R_evidence double pairwise listing_order ok drain_h drain_d _ _ _ _ (Some wet) H4 (drain_fits_wet _)).
    exact (@R_query double pairwise listing_order ok drain_h drain_d _ _ _ _ ["rain"] H5). }
  split; [vm_compute; reflexivity|]. split.
  { intros n R x HR Hx. destruct n; (destruct HR as [->| ->]); (destruct Hx as [<-|[<-|[<-|[]]]]); apply Nat.leb_le; vm_compute; reflexivity. }
  apply qleb_true. vm_compute. reflexivity.
Qed.

(** The answers in doubles are not the exact ones. *)
Theorem C78_exact_refuted : exists h d s done p e evs n Q f q,
  let b0 := view (mkW h (db0 d)) in let two := view (mkW h (dtwo d)) in
  trackable b0 two (dtrans d) /\ objects h d /\ @rsession double pairwise listing_order (fitting_evidence b0 two) h d s done p (Some (e :: evs)) /\
  In n (bnodes (slice_base b0 two (length evs))) /\ NoDup Q /\ incl Q (dn_name n :: map fst (dn_parents n)) /\ is_inst (slice_base b0 two (length evs)) Q q /\
  @rdmarginals double pairwise listing_order s Q = (s, Ok f) /\ potential_at f q <> posterior (believed b0 two (dtrans d) evs) e q.
Proof.
  destruct C78_example as (T & O & _ & S & _). exists drain_h, drain_d, dcalls, [dry; wet], (Pending wet), wet, [dry; wet]. 
  exists (nth 1 (bnodes drain1) (mkN "" [] [] [] (mkArr [] []))), ["rain"]. eexists. exists [("rain", "t")]. cbv zeta in *. rewrite drain_v0, drain_v1 in *.
  split; [exact T|]. split; [exact O|]. split; [exact S|]. split; [apply nth_In; vm_compute; lia|].
  split; [apply nodup_s_spec; reflexivity|]. split; [apply inclb_ok; vm_compute; reflexivity|].
  split; [split; [apply nodup_s_spec; reflexivity|split; [reflexivity|]]; intros v x [H|[]]; injection H as <- <-; vm_compute; tauto|].
  split; [vm_compute; reflexivity|]. intros H. apply (f_equal this) in H. vm_compute in H. discriminate.
Qed.

Print Assumptions C78_same_program.
Print Assumptions C78_succeeds.
Print Assumptions C78_answers.
Print Assumptions C78_filtering.
Print Assumptions C78_linear.
Print Assumptions C78_zeros.
Print Assumptions C78_absolute.
Print Assumptions C78_exact_refuted.
