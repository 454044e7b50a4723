(** Properties C37-C42: dynamic Bayesian networks. *)
From Verif Require Import Base BaseFacts NDArray Factor Exact Spec SpecFacts Checks Order OrderSpec JoinTree TreeSpec JTDefault Node Network NetSpec NetFacts NetView NetChecks
  MCSpec MCChecks Dynamic DynSpec DynPure DynHeap DynPrior DynSoft DynState DynMore DynIndep DynProbs DynChecks Instances ExampleNets.

(** ** Concrete networks *)
Definition prior_of (v : string) (a b : Qc) : dnode := mkN v tf [] [] (mkArr [2] [a; b]).
Definition given1 (v p : string) (l : list Qc) : dnode := mkN v tf [(p, tf)] [p] (mkArr [2; 2] l).
Definition given2 (v p q : string) (l : list Qc) : dnode := mkN v tf [(p, tf); (q, tf)] [p; q] (mkArr [2; 2; 2] l).

(** rain -> wet; old -> rain -> wet. *)
Definition rain0 : bn := mkBN [prior_of "rain" (qq 1 2) (qq 1 2); given1 "wet" "rain" [qq 9 10; qq 1 5; qq 1 10; qq 4 5]] ["rain"; "wet"] [("rain", "wet")].
Definition rain1 : bn := mkBN [prior_of "old" (qq 1 4) (qq 3 4); given1 "rain" "old" [qq 7 10; qq 3 10; qq 3 10; qq 7 10];
    given1 "wet" "rain" [qq 9 10; qq 1 5; qq 1 10; qq 4 5]] ["old"; "rain"; "wet"] [("old", "rain"); ("rain", "wet")].
Definition rain : heap * dbnet := dbn_of rain0 rain1 [("old", "rain")].
Definition rain_h : heap := fst rain.
Definition rain_d : dbnet := snd rain.

(** a, b -> c, both persistent. *)
Definition either : list Qc := [qq 1 1; qq 1 1; qq 1 1; qq 0 1; qq 0 1; qq 0 1; qq 0 1; qq 1 1].
Definition persists : list Qc := [qq 9 10; qq 1 10; qq 1 10; qq 9 10].
Definition duo0 : bn := mkBN [prior_of "a" (qq 1 2) (qq 1 2); prior_of "b" (qq 1 2) (qq 1 2); given2 "c" "a" "b" either] ["a"; "b"; "c"] [("a", "c"); ("b", "c")].
Definition duo1 : bn := mkBN [prior_of "olda" (qq 1 2) (qq 1 2); prior_of "oldb" (qq 1 2) (qq 1 2); given1 "a" "olda" persists; given1 "b" "oldb" persists;
    given2 "c" "a" "b" either] ["olda"; "oldb"; "a"; "b"; "c"] [("olda", "a"); ("oldb", "b"); ("a", "c"); ("b", "c")].
Definition duo_trans : list (string * string) := [("olda", "a"); ("oldb", "b")].
Definition duo : heap * dbnet := dbn_of duo0 duo1 duo_trans.
Definition duo_h : heap := fst duo.
Definition duo_d : dbnet := snd duo.

(** [rain] with a 2-TBN in which [old] is certainly false. *)
Definition sure1 : bn := mkBN [prior_of "old" 0 1; given1 "rain" "old" [qq 7 10; qq 3 10; qq 3 10; qq 7 10];
    given1 "wet" "rain" [qq 9 10; qq 1 5; qq 1 10; qq 4 5]] ["old"; "rain"; "wet"] [("old", "rain"); ("rain", "wet")].
Definition sure : heap * dbnet := dbn_of rain0 sure1 [("old", "rain")].

(** [rain] with the values of [old] listed the other way round. *)
Definition swap1 : bn := mkBN [mkN "old" ["f"; "t"] [] [] (mkArr [2] [qq 3 4; qq 1 4]);
    mkN "rain" tf [("old", ["f"; "t"])] ["old"] (mkArr [2; 2] [qq 3 10; qq 7 10; qq 7 10; qq 3 10]);
    given1 "wet" "rain" [qq 9 10; qq 1 5; qq 1 10; qq 4 5]] ["old"; "rain"; "wet"] [("old", "rain"); ("rain", "wet")].
Definition swap : heap * dbnet := dbn_of rain0 swap1 [("old", "rain")].

Lemma view_0 b0 two tr : all_withinb start (script b0) = true -> view (world_of b0) = b0 ->
  view (mkW (fst (dbn_of b0 two tr)) (db0 (snd (dbn_of b0 two tr)))) = b0.
Proof. intros A E. unfold dbn_of. rewrite view_side_0; [exact E|]. apply NetInv.iv_c, NetTop.reached_inv, world_of_reached, A. Qed.
Lemma view_two b0 two tr : view (world_of two) = two -> view (mkW (fst (dbn_of b0 two tr)) (dtwo (snd (dbn_of b0 two tr)))) = two.
Proof. intros E. unfold dbn_of. rewrite view_side_two. exact E. Qed.

Lemma rain_v0 : view (mkW rain_h (db0 rain_d)) = rain0. Proof. apply view_0; vm_compute; reflexivity. Qed.
Lemma rain_v1 : view (mkW rain_h (dtwo rain_d)) = rain1. Proof. apply view_two; vm_compute; reflexivity. Qed.
Lemma duo_v0 : view (mkW duo_h (db0 duo_d)) = duo0. Proof. apply view_0; vm_compute; reflexivity. Qed.
Lemma duo_v1 : view (mkW duo_h (dtwo duo_d)) = duo1. Proof. apply view_two; vm_compute; reflexivity. Qed.
Lemma rain_objects : objects rain_h rain_d.
Proof. apply side_objects; [apply world_of_reached; vm_compute; reflexivity|apply world_of_reached; vm_compute; reflexivity|]. intros v p [E|[]]. injection E as <- <-. vm_compute. auto. Qed.
Lemma duo_objects : objects duo_h duo_d.
Proof.
  apply side_objects; [apply world_of_reached; vm_compute; reflexivity|apply world_of_reached; vm_compute; reflexivity|]. intros v p [E|[E|[]]]; injection E as <- <-; vm_compute; auto.
Qed.
Lemma rain_trackable : trackable rain0 rain1 [("old", "rain")].
Proof. apply (trackableb_ok _ _ _ ["rain"; "wet"] ["old"; "rain"; "wet"]). vm_compute. reflexivity. Qed.
Lemma duo_trackable : trackable duo0 duo1 duo_trans.
Proof. apply (trackableb_ok _ _ _ ["a"; "b"; "c"] ["olda"; "a"; "b"; "oldb"; "c"]). vm_compute. reflexivity. Qed.

Definition wet : evidence := [("wet", Hard "t")].
Definition dry : evidence := [("wet", Hard "f")].
Definition sees_c : evidence := [("c", Hard "t")].

(** The state after some calls, and a reported table. *)
Definition after {SO : SetOrder} (m : method) (x : heap * dbnet) (cs : list mcall) : mstate := mrun m (mcreate m (fst x) (snd x)) cs.
Lemma two_unrolls {SO : SetOrder} m (ok : list evidence -> evidence -> Prop) h d e e' : ok [] e' -> ok [e'] e ->
  session m ok h d (mrun m (mcreate m h d) [MUnroll (Some e') None; MUnroll (Some e) None]) [e; e'] Nothing (Some [e; e']).
Proof.
  intros O1 O2. assert (P : plain m None) by (destruct m; [discriminate|reflexivity]). cbn [mrun].
  apply (S_unroll m ok h d _ [e'] Nothing (Some [e']) (Some e) None); [|left; reflexivity|exact P|exact O2].
  apply (S_unroll m ok h d _ [] Nothing None (Some e') None); [apply S_create|left; reflexivity|exact P|exact O1].
Qed.
Definition shown {SO : SetOrder} (s : mstate) (v : string) : list Qc := match snd (dmarginals s [v]) with Ok f => data (pot f) | Err _ => [] end.

(** ** C37: the state machine *)
Section C37.
Context {SO : SetOrder}.

(** t is the number of unrolls that did not raise, in every history. *)
Theorem C37_time m h d cs : mt (mrun m (mcreate m h d) cs) = unrolled m (mcreate m h d) cs.
Proof. rewrite time_counts. destruct m; reflexivity. Qed.

(** Evidence for slice 0 goes to B_0, later evidence to the 2-TBN; the marginals
    after it come from there. *)
Theorem C37_network m h d cs ev kw : let s := mrun m (mcreate m h d) cs in
  (snd (mexec m s (MEvidence ev kw)) = Ok tt -> exists t, mtree (fst (mexec m s (MEvidence ev kw))) = Some (Nat.eqb (mt s) 0, t)) /\
  (snd (mexec m s (MUnroll ev kw)) = Ok tt -> exists t, mtree (fst (mexec m s (MUnroll ev kw))) = Some (Nat.eqb (mt s) 0, t)).
Proof. split; [apply right_network|apply right_network_unroll]. Qed.

(** Every history of successful calls amounts to one in which each unroll comes
    with its evidence: its own, or the one set last since the unroll before.
    Missing for the full claim: calls that raise (next theorem). *)
Theorem C37_canonical_partial m h d cs : evidence_calls cs -> succeed m (mcreate m h d) cs ->
  succeed m (mcreate m h d) (effective None cs) /\ mrun m (mcreate m h d) (effective None cs) = mrun m (mcreate m h d) cs.
Proof. exact (canonical m h d cs). Qed.
End C37.

(** set_evidence raises, and yet the next unroll uses part of its evidence
    instead of the evidence set before. *)
Theorem C37_failed_evidence_refuted : exists (SO : SetOrder) m h d e bad x,
  let s0 := mcreate m h d in
  let s1 := fst (mexec m s0 (MEvidence (Some e) None)) in
  let s2 := fst (mexec m s1 (MEvidence (Some bad) None)) in
  let s3 := fst (mexec m s2 (MUnroll None None)) in
  snd (mexec m s0 (MEvidence (Some e) None)) = Ok tt /\ snd (mexec m s1 (MEvidence (Some bad) None)) = Err x /\
  snd (mexec m s2 (MUnroll None None)) = Ok tt /\
  shown s3 "rain" <> shown (fst (mexec m s0 (MUnroll (Some e) None))) "rain" /\
  shown s3 "rain" = shown (fst (mexec m s0 (MUnroll (Some (firstn 1 bad)) None))) "rain".
Proof.
  exists listing_order, PriorFeedback, rain_h, rain_d, [], [("wet", Hard "t"); ("nope", Hard "t")], PlainException. cbv zeta.
  split; [vm_compute; reflexivity|]. split; [vm_compute; reflexivity|]. split; [vm_compute; reflexivity|]. split; [|qlist].
  intros H. apply (f_equal (map this)) in H. vm_compute in H. discriminate.
Qed.

Definition some_calls : list mcall :=
  [MEvidence (Some dry) None; MEvidence (Some wet) (Some true); MUnroll None None; MUnroll None None; MEvidence (Some dry) None; MUnroll (Some wet) None; MEvidence (Some dry) None].
Example C37_example : let SO := listing_order in forall m,
  evidence_calls some_calls /\ succeed m (mcreate m rain_h rain_d) some_calls /\ unrolled m (mcreate m rain_h rain_d) some_calls = 3 /\
  effective None some_calls = [MUnroll (Some wet) None; MUnroll None None; MUnroll (Some wet) None; MEvidence (Some dry) None].
Proof.
  cbv zeta. intros m. split; [intros c H; repeat (destruct H as [<-|H]; [exact I|]); destruct H|]. split; [|split; [|reflexivity]].
  - destruct m; cbn [succeed some_calls]; repeat split; vm_compute; reflexivity.
  - destruct m; vm_compute; reflexivity.
Qed.

(** ** C38: soft_posteriors in set_evidence *)
(** Missing: soft evidence with [soft_posteriors] (refuted next). *)
Theorem C38_keyword_partial {SO : SetOrder} m s ev kw kw' : snd (mexec m s (MUnroll (Some ev) kw)) = Ok tt ->
  plain m kw \/ m = PriorFeedback /\ hard_only ev ->
  snd (mexec m s (MEvidence (Some ev) kw')) = Ok tt /\
  mexec m (fst (mexec m s (MEvidence (Some ev) kw'))) (MUnroll None kw') = mexec m s (MUnroll (Some ev) kw).
Proof. exact (keyword_alike m s ev kw kw'). Qed.

Theorem C38_keyword_refuted : exists (SO : SetOrder) h d e, let m := PriorFeedback in let s := mcreate m h d in
  snd (mexec m s (MUnroll (Some e) (Some true))) = Ok tt /\
  snd (mexec m s (MEvidence (Some e) (Some true))) = Ok tt /\
  snd (mexec m (fst (mexec m s (MEvidence (Some e) (Some true)))) (MUnroll None (Some true))) = Ok tt /\
  shown (fst (mexec m (fst (mexec m s (MEvidence (Some e) (Some true)))) (MUnroll None (Some true)))) "rain" <>
  shown (fst (mexec m s (MUnroll (Some e) (Some true)))) "rain".
Proof.
  exists listing_order, rain_h, rain_d, [("wet", Soft [qq 3 4; qq 1 4])]. cbv zeta.
  split; [vm_compute; reflexivity|]. split; [vm_compute; reflexivity|]. split; [vm_compute; reflexivity|].
  intros H. apply (f_equal (map this)) in H. vm_compute in H. discriminate.
Qed.

(** SoftEvidenceExact takes the argument in set_evidence, but not in unroll. *)
Theorem C38_soft_refuted : exists (SO : SetOrder) h d e, let m := SoftEvidence in let s := mcreate m h d in
  snd (mexec m s (MUnroll (Some e) (Some true))) = Err TypeError /\
  snd (mexec m s (MEvidence (Some e) (Some true))) = Ok tt /\
  snd (mexec m (fst (mexec m s (MEvidence (Some e) (Some true)))) (MUnroll None (Some true))) = Ok tt.
Proof. exists listing_order, rain_h, rain_d, wet. cbv zeta. repeat split; vm_compute; reflexivity. Qed.

Example C38_example : let SO := listing_order in
  let s := after PriorFeedback rain [MUnroll (Some wet) None; MUnroll None None] in
  hard_only wet /\ snd (mexec PriorFeedback s (MUnroll (Some wet) (Some true))) = Ok tt /\
  plain PriorFeedback (Some false) /\ snd (mexec PriorFeedback s (MUnroll (Some [("wet", Soft [qq 3 4; qq 1 4])]) (Some false))) = Ok tt.
Proof.
  cbv zeta. split; [intros v x [E|[]]; injection E as <- <-; eauto|]. split; [vm_compute; reflexivity|]. split; [discriminate|vm_compute; reflexivity].
Qed.

(** ** C39: filtering *)
Lemma slice_base_wf b0 two trans k : trackable b0 two trans -> wf_bn (slice_base b0 two k).
Proof. intros TR. destruct k; [destruct (tr_b0 _ _ _ TR) as (o & _ & U); apply U|destruct (tr_two _ _ _ TR) as (o & _ & U); apply U]. Qed.

Section C39.
Context {SO : SetOrder}.

(** In every session, the marginals over a node and (some of) its parents are
    those of the unrolled network given all evidence, provided the variables
    taken over are independent given the evidence, in every finished slice.
    Missing: other networks ([trackable]: the join tree's conditions, roots as
    entry points, equal value lists), other sets of variables, and dependent
    variables (refuted below). *)
Theorem C39_filtering_partial h d s done p e evs n Q :
  let b0 := view (mkW h (db0 d)) in let two := view (mkW h (dtwo d)) in
  trackable b0 two (dtrans d) -> objects h d ->
  session PriorFeedback (fitting_evidence b0 two) h d s done p (Some (e :: evs)) ->
  all_factorised b0 two (dtrans d) evs ->
  In n (bnodes (slice_base b0 two (length evs))) -> NoDup Q -> incl Q (dn_name n :: map fst (dn_parents n)) ->
  exists f, snd (dmarginals s Q) = Ok f /\ reports (slice_base b0 two (length evs)) f Q (filtered b0 two (dtrans d) (e :: evs)).
Proof.
  intros b0 two TR OB SS AF Hn ND I. destruct (prior_answers h d TR OB s done p e evs n Q SS Hn ND I) as (f & Ef & R). exists f. split; [exact Ef|].
  assert (SI := pi_shown _ _ _ _ _ _ (prior_session h d TR OB _ _ _ _ SS)). destruct SI as (_ & L & _).
  assert (W2 : wf_bn two) by (destruct (tr_two _ _ _ TR) as (o & _ & U); apply U).
  assert (X := slice_exact b0 two (dtrans d) (tr_wired _ _ _ TR) W2 (tr_nn0 _ _ _ TR) (tr_nn _ _ _ TR) evs e L AF).
  exact (reports_values _ _ f Q _ _ (fun _ => eq_refl) X R).
Qed.

(** With one transition nothing is asked of the evidence. *)
Theorem C39_one_transition h d s done p e evs n Q v q :
  let b0 := view (mkW h (db0 d)) in let two := view (mkW h (dtwo d)) in
  trackable b0 two (dtrans d) -> objects h d -> dtrans d = [(v, q)] ->
  session PriorFeedback (fitting_evidence b0 two) h d s done p (Some (e :: evs)) ->
  In n (bnodes (slice_base b0 two (length evs))) -> NoDup Q -> incl Q (dn_name n :: map fst (dn_parents n)) ->
  exists f, snd (dmarginals s Q) = Ok f /\ reports (slice_base b0 two (length evs)) f Q (filtered b0 two (dtrans d) (e :: evs)).
Proof.
  intros b0 two TR OB E1 SS. apply (C39_filtering_partial h d s done p e evs n Q TR OB SS).
  clear SS. induction evs as [|e' evs IH]; [exact I|]. split; [|exact IH]. apply (one_factorised b0 two (dtrans d) v q (e' :: evs) E1).
Qed.

(** marginal_probabilities: the values with their filtered probabilities, in the
    order of the value list.  Missing: as above. *)
Theorem C39_probabilities_partial h d s done p e evs v :
  let b0 := view (mkW h (db0 d)) in let two := view (mkW h (dtwo d)) in
  trackable b0 two (dtrans d) -> objects h d ->
  session PriorFeedback (fitting_evidence b0 two) h d s done p (Some (e :: evs)) ->
  all_factorised b0 two (dtrans d) evs -> In v (bnames (slice_base b0 two (length evs))) ->
  snd (marginal_probabilities s v) = Ok (map (fun x => (x, filtered b0 two (dtrans d) (e :: evs) [(v, x)])) (values_of (slice_base b0 two (length evs)) v)).
Proof.
  intros b0 two TR OB SS AF Hv. apply in_map_iff in Hv as (n & <- & Hn).
  destruct (C39_filtering_partial h d s done p e evs n [dn_name n] TR OB SS AF Hn) as (f & E & R).
  { constructor; [intros []|constructor]. }
  { intros w [<-|[]]. left. reflexivity. }
  rewrite (probabilities_reported s (slice_base b0 two (length evs)) f _ _ (slice_base_wf b0 two (dtrans d) (length evs) TR) E R). reflexivity.
Qed.

(** With several, observing all but one variable taken over in each slice is
    enough. *)
Definition all_but_one (trans : list (string * string)) (e : evidence) : Prop :=
  exists vp0, In vp0 trans /\ forall vp, In vp trans -> vp = vp0 \/ exists x, dget (snd vp) e = Some (Hard x).
Theorem C39_observed h d s done p e evs n Q :
  let b0 := view (mkW h (db0 d)) in let two := view (mkW h (dtwo d)) in
  trackable b0 two (dtrans d) -> objects h d -> Forall (all_but_one (dtrans d)) evs ->
  session PriorFeedback (fitting_evidence b0 two) h d s done p (Some (e :: evs)) ->
  In n (bnodes (slice_base b0 two (length evs))) -> NoDup Q -> incl Q (dn_name n :: map fst (dn_parents n)) ->
  exists f, snd (dmarginals s Q) = Ok f /\ reports (slice_base b0 two (length evs)) f Q (filtered b0 two (dtrans d) (e :: evs)).
Proof.
  intros b0 two TR OB FA SS. apply (C39_filtering_partial h d s done p e evs n Q TR OB SS). assert (WI := tr_wired _ _ _ TR).
  clear SS. induction FA as [|e' evs (vp0 & I0 & H) _ IH]; [exact I|]. split; [|exact IH]. apply (observed_factorised b0 two (dtrans d) e' evs vp0); [|exact I0| |exact H].
  - apply (NoDup_map_inv fst), (wi_nodup _ _ _ WI).
  - intros (v & q) J. cbn [snd]. destruct evs; [apply (wi_b0 _ _ _ WI v q J)|apply (wi_two _ _ _ WI v q J)].
Qed.
End C39.

(** Two variables that depend on each other given the evidence. *)
Theorem C39_dependent_refuted : exists (SO : SetOrder) h d s e e',
  let b0 := view (mkW h (db0 d)) in let two := view (mkW h (dtwo d)) in
  trackable b0 two (dtrans d) /\ objects h d /\
  session PriorFeedback (fitting_evidence b0 two) h d s [e; e'] Nothing (Some [e; e']) /\
  exists f, snd (dmarginals s ["a"]) = Ok f /\
    ~ reports two f ["a"] (filtered b0 two (dtrans d) [e; e']).
Proof.
  exists listing_order, duo_h, duo_d, (mrun (SO := listing_order) PriorFeedback (mcreate PriorFeedback duo_h duo_d) [MUnroll (Some sees_c) None; MUnroll (Some sees_c) None]), sees_c, sees_c. cbv zeta. rewrite duo_v0, duo_v1.
  split; [exact duo_trackable|]. split; [exact duo_objects|]. split.
  - apply two_unrolls; apply fittingb_ok; vm_compute; reflexivity.
  - eexists. split; [vm_compute; reflexivity|]. intros (_ & _ & _ & _ & _ & _ & H). specialize (H [("a", "t")]).
    assert (J : is_inst duo1 ["a"] [("a", "t")]).
    { split; [constructor; [intros []|constructor]|]. split; [intros v; cbn; tauto|]. intros v x [E|[]]. injection E as <- <-. vm_compute. auto. }
    apply H in J. apply (f_equal this) in J. vm_compute in J. discriminate.
Qed.

(** The values of the taken-over variable listed in another order. *)
Theorem C39_value_order_refuted : exists (SO : SetOrder) h d s e e',
  let b0 := view (mkW h (db0 d)) in let two := view (mkW h (dtwo d)) in
  dtrans d = [("old", "rain")] /\ objects h d /\ suited b0 /\ suited two /\ Permutation (values_of b0 "rain") (values_of two "old") /\
  session PriorFeedback (fitting_evidence b0 two) h d s [e; e'] Nothing (Some [e; e']) /\
  exists f, snd (dmarginals s ["rain"]) = Ok f /\
    ~ reports two f ["rain"] (filtered b0 two (dtrans d) [e; e']).
Proof.
  exists listing_order, (fst swap), (snd swap), (mrun (SO := listing_order) PriorFeedback (mcreate PriorFeedback (fst swap) (snd swap)) [MUnroll (Some wet) None; MUnroll (Some wet) None]), wet, wet. cbv zeta.
  assert (V0 : view (mkW (fst swap) (db0 (snd swap))) = rain0) by (apply view_0; vm_compute; reflexivity).
  assert (V1 : view (mkW (fst swap) (dtwo (snd swap))) = swap1) by (apply view_two; vm_compute; reflexivity).
  rewrite V0, V1. split; [reflexivity|]. split.
  { apply side_objects; [apply world_of_reached; vm_compute; reflexivity|apply world_of_reached; vm_compute; reflexivity|]. intros v p [E|[]]. injection E as <- <-. vm_compute. auto. }
  split; [exact (tr_b0 _ _ _ rain_trackable)|]. split; [apply (suited_ok _ ["old"; "rain"; "wet"] ["old"; "rain"; "wet"]); vm_compute; reflexivity|]. split; [vm_compute; apply perm_swap|]. split.
  - apply two_unrolls; apply fittingb_ok; vm_compute; reflexivity.
  - eexists. split; [vm_compute; reflexivity|]. intros (_ & _ & _ & _ & _ & _ & H). specialize (H [("rain", "t")]).
    assert (J : is_inst swap1 ["rain"] [("rain", "t")]).
    { split; [constructor; [intros []|constructor]|]. split; [intros v; cbn; tauto|]. intros v x [E|[]]. injection E as <- <-. vm_compute. auto. }
    apply H in J. apply (f_equal this) in J. vm_compute in J. discriminate.
Qed.

(** A session with a waiting evidence, queries and a failing call in between. *)
Lemma rain_session {SO : SetOrder} m (ok : list evidence -> evidence -> Prop) : (forall done, ok done wet) -> ok [wet] dry ->
  exists s, session m ok rain_h rain_d s [dry; wet] (Pending wet) (Some [wet; dry; wet]).
Proof.
  intros O1 O2. assert (P : plain m None) by (destruct m; [discriminate|reflexivity]).
  assert (H1 := S_unroll m ok rain_h rain_d _ _ _ _ (Some wet) None (S_create m ok rain_h rain_d) (or_introl eq_refl) P (O1 [])).
  assert (H2 := S_evidence m ok rain_h rain_d _ _ _ _ (Some dry) None H1 O2).
  assert (H3 := S_unroll_pending m ok rain_h rain_d _ _ _ _ None H2).
  assert (H4 := S_evidence m ok rain_h rain_d _ _ _ _ (Some wet) None H3 (O1 _)).
  eexists. exact (S_query m ok rain_h rain_d _ _ _ _ ["rain"] H4).
Qed.
Lemma rain_fits_wet done : fitting_evidence rain0 rain1 done wet.
Proof. destruct done; apply fittingb_ok; vm_compute; reflexivity. Qed.
Lemma rain_fits_dry done : fitting_evidence rain0 rain1 done dry.
Proof. destruct done; apply fittingb_ok; vm_compute; reflexivity. Qed.

Example C39_example {SO : SetOrder} : let b0 := view (mkW rain_h (db0 rain_d)) in let two := view (mkW rain_h (dtwo rain_d)) in
  trackable b0 two (dtrans rain_d) /\ objects rain_h rain_d /\
  (exists s, session PriorFeedback (fitting_evidence b0 two) rain_h rain_d s [dry; wet] (Pending wet) (Some [wet; dry; wet])) /\
  all_factorised b0 two (dtrans rain_d) [dry; wet] /\
  filtered b0 two (dtrans rain_d) [wet; dry; wet] [("rain", "t")] = qq 13203 18209.
Proof.
  cbv zeta. rewrite rain_v0, rain_v1. split; [exact rain_trackable|]. split; [exact rain_objects|].
  split; [apply rain_session; intros; [apply rain_fits_wet|apply rain_fits_dry]|].
  split; [repeat split; apply (one_factorised _ _ _ "old" "rain"); reflexivity|qc].
Qed.

(** Two transitions: independent as long as their common child is not observed,
    or as long as one of them is. *)
Example C39_two_example : let b0 := view (mkW duo_h (db0 duo_d)) in let two := view (mkW duo_h (dtwo duo_d)) in
  trackable b0 two (dtrans duo_d) /\ objects duo_h duo_d /\
  all_factorised b0 two (dtrans duo_d) [[("b", Soft [qq 1 3; qq 2 3])]; [("a", Soft [qq 3 4; qq 1 4])]] /\
  Forall (all_but_one (dtrans duo_d)) [[("c", Hard "t"); ("a", Hard "f")]; [("b", Hard "t"); ("c", Hard "t")]] /\
  ~ factorised b0 two (dtrans duo_d) [sees_c].
Proof.
  cbv zeta. rewrite duo_v0, duo_v1. split; [exact duo_trackable|]. split; [exact duo_objects|].
  split; [repeat split; apply factorisedb_ok; vm_compute; reflexivity|]. split.
  - repeat constructor; [exists ("oldb", "b")|exists ("olda", "a")]; (split; [cbn; auto|]); intros vp [<-|[<-|[]]]; cbn; eauto.
  - intros F. specialize (F [("olda", "t"); ("oldb", "t"); ("a", "t"); ("b", "t"); ("c", "t")]). assert (J : In [("olda", "t"); ("oldb", "t"); ("a", "t"); ("b", "t"); ("c", "t")] (states (bvars duo1))) by (vm_compute; auto).
    apply F in J. apply (f_equal this) in J. vm_compute in J. discriminate.
Qed.

(** ** C40: the two methods *)
(** Missing: evidence on variables taken over and values that the 2-TBN itself
    excludes (both refuted below), impossible evidence, and what C39 leaves out. *)
Theorem C40_methods_partial {SO : SetOrder} h d order s done p s' done' p' e evs n Q :
  let b0 := view (mkW h (db0 d)) in let two := view (mkW h (dtwo d)) in
  trackable b0 two (dtrans d) -> objects h d -> stochastic_bn two -> topological two order ->
  session PriorFeedback (fitting_evidence b0 two) h d s done p (Some (e :: evs)) ->
  session SoftEvidence (soft_ok b0 two (dtrans d)) h d s' done' p' (Some (e :: evs)) ->
  In n (bnodes (slice_base b0 two (length evs))) -> NoDup Q -> incl Q (dn_name n :: map fst (dn_parents n)) ->
  exists f f', snd (dmarginals s Q) = Ok f /\ snd (dmarginals s' Q) = Ok f' /\
    forall q, is_inst (slice_base b0 two (length evs)) Q q -> potential_at f q = potential_at f' q.
Proof.
  intros b0 two TR OB ST TO S1 S2 Hn ND I. destruct (prior_answers h d TR OB s done p e evs n Q S1 Hn ND I) as (f & Ef & R).
  destruct (soft_answers h d TR ST order TO s' done' p' e evs n Q S2 Hn ND I) as (f' & Ef' & R'). exists f, f'. split; [exact Ef|]. split; [exact Ef'|].
  intros q J. destruct R as (_ & _ & _ & _ & _ & _ & R), R' as (_ & _ & _ & _ & _ & _ & R'). rewrite R, R' by exact J. reflexivity.
Qed.

(** ... and their dicts of probabilities. *)
Theorem C40_probabilities_partial {SO : SetOrder} h d order s done p s' done' p' e evs v :
  let b0 := view (mkW h (db0 d)) in let two := view (mkW h (dtwo d)) in
  trackable b0 two (dtrans d) -> objects h d -> stochastic_bn two -> topological two order ->
  session PriorFeedback (fitting_evidence b0 two) h d s done p (Some (e :: evs)) ->
  session SoftEvidence (soft_ok b0 two (dtrans d)) h d s' done' p' (Some (e :: evs)) ->
  In v (bnames (slice_base b0 two (length evs))) ->
  exists D, snd (marginal_probabilities s v) = Ok D /\ snd (marginal_probabilities s' v) = Ok D /\ dkeys D = values_of (slice_base b0 two (length evs)) v.
Proof.
  intros b0 two TR OB ST TO S1 S2 Hv. apply in_map_iff in Hv as (n & <- & Hn).
  assert (ND : NoDup [dn_name n]) by (constructor; [intros []|constructor]).
  assert (I : incl [dn_name n] (dn_name n :: map fst (dn_parents n))) by (intros w [<-|[]]; left; reflexivity).
  destruct (prior_answers h d TR OB s done p e evs n _ S1 Hn ND I) as (f & Ef & R).
  destruct (soft_answers h d TR ST order TO s' done' p' e evs n _ S2 Hn ND I) as (f' & Ef' & R').
  assert (W := slice_base_wf b0 two (dtrans d) (length evs) TR). eexists.
  split; [rewrite (probabilities_reported s _ f _ _ W Ef R); reflexivity|].
  split; [rewrite (probabilities_reported s' _ f' _ _ W Ef' R'); reflexivity|].
  unfold dkeys. rewrite map_map. apply map_id.
Qed.

Lemma rain_soft_ok done e : fitting_evidence rain0 rain1 done e -> hard_only e -> (forall v, In v (dkeys e) -> v <> "old") ->
  mass (slice_bn rain0 rain1 [("old", "rain")] done) e [] <> 0%Qc -> soft_ok rain0 rain1 [("old", "rain")] done e.
Proof.
  intros F H O M. constructor; [exact F|exact H| |exact M|].
  - intros _ v J [E|[]]. apply (O v J). cbn in E. congruence.
  - intros v p x [E|[]] J _. injection E as <- <-. vm_compute in J. destruct J as [<-|[<-|[]]]; intros Z; apply (f_equal this) in Z; vm_compute in Z; discriminate.
Qed.

Example C40_example {SO : SetOrder} : let b0 := view (mkW rain_h (db0 rain_d)) in let two := view (mkW rain_h (dtwo rain_d)) in
  trackable b0 two (dtrans rain_d) /\ objects rain_h rain_d /\ stochastic_bn two /\ topological two ["old"; "rain"; "wet"] /\
  (exists s, session PriorFeedback (fitting_evidence b0 two) rain_h rain_d s [dry; wet] Nothing (Some [dry; wet])) /\
  (exists s, session SoftEvidence (soft_ok b0 two (dtrans rain_d)) rain_h rain_d s [wet] (Pending dry) (Some [dry; wet])).
Proof.
  cbv zeta. rewrite rain_v0, rain_v1. split; [exact rain_trackable|]. split; [exact rain_objects|].
  assert (W : wf_bn rain1) by (apply wf_bnb_ok; vm_compute; reflexivity).
  split; [apply stochasticb_ok; [exact W|vm_compute; reflexivity]|]. split; [apply topological_ok; [exact W|vm_compute; reflexivity|vm_compute; reflexivity]|]. split.
  - eexists. exact (two_unrolls PriorFeedback _ rain_h rain_d dry wet (rain_fits_wet _) (rain_fits_dry _)).
  - assert (O1 : soft_ok rain0 rain1 [("old", "rain")] [] wet).
    { apply rain_soft_ok; [apply rain_fits_wet| | |].
      - intros v x [E|[]]. injection E as <- <-. eauto.
      - intros v [<-|[]]. discriminate.
      - intros Z. apply (f_equal this) in Z. vm_compute in Z. discriminate. }
    assert (O2 : soft_ok rain0 rain1 [("old", "rain")] [wet] dry).
    { apply rain_soft_ok; [apply rain_fits_dry| | |].
      - intros v x [E|[]]. injection E as <- <-. eauto.
      - intros v [<-|[]]. discriminate.
      - intros Z. apply (f_equal this) in Z. vm_compute in Z. discriminate. }
    change (dtrans rain_d) with [("old", "rain")].
    assert (H1 := S_unroll SoftEvidence _ rain_h rain_d _ _ _ _ (Some wet) None (S_create SoftEvidence _ rain_h rain_d) (or_introl eq_refl) eq_refl O1).
    eexists. exact (S_evidence SoftEvidence _ rain_h rain_d _ _ _ _ (Some dry) None H1 O2).
Qed.

(** Evidence on the variable taken over: the soft variant replaces it. *)
Theorem C40_interface_refuted : exists (SO : SetOrder) h d e e',
  let b0 := view (mkW h (db0 d)) in let two := view (mkW h (dtwo d)) in
  trackable b0 two (dtrans d) /\ objects h d /\ hard_only e /\ hard_only e' /\ fitting_evidence b0 two [] e /\ fitting_evidence b0 two [e] e' /\
  (forall m, succeed m (mcreate m h d) [MUnroll (Some e) None; MUnroll (Some e') None]) /\
  shown (after PriorFeedback (h, d) [MUnroll (Some e) None; MUnroll (Some e') None]) "rain" <>
  shown (after SoftEvidence (h, d) [MUnroll (Some e) None; MUnroll (Some e') None]) "rain".
Proof.
  exists listing_order, rain_h, rain_d, wet, [("old", Hard "t")]. cbv zeta. rewrite rain_v0, rain_v1. split; [exact rain_trackable|]. split; [exact rain_objects|].
  split; [intros v x [E|[]]; injection E as <- <-; eauto|]. split; [intros v x [E|[]]; injection E as <- <-; eauto|].
  split; [apply rain_fits_wet|]. split; [apply fittingb_ok; vm_compute; reflexivity|]. split; [intros []; cbn [succeed]; repeat split; vm_compute; reflexivity|].
  intros H. apply (f_equal (map this)) in H. vm_compute in H. discriminate.
Qed.

(** A value that the 2-TBN's own table excludes: the soft variant cannot reach it. *)
Theorem C40_excluded_refuted : exists (SO : SetOrder) h d e,
  let b0 := view (mkW h (db0 d)) in let two := view (mkW h (dtwo d)) in
  trackable b0 two (dtrans d) /\ objects h d /\ hard_only e /\ off_interface (dtrans d) [e] e /\ fitting_evidence b0 two [] e /\ fitting_evidence b0 two [e] e /\
  (forall m, succeed m (mcreate m h d) [MUnroll (Some e) None; MUnroll (Some e) None]) /\
  shown (after PriorFeedback (h, d) [MUnroll (Some e) None; MUnroll (Some e) None]) "rain" <>
  shown (after SoftEvidence (h, d) [MUnroll (Some e) None; MUnroll (Some e) None]) "rain".
Proof.
  exists listing_order, (fst sure), (snd sure), wet. cbv zeta.
  assert (V0 : view (mkW (fst sure) (db0 (snd sure))) = rain0) by (apply view_0; vm_compute; reflexivity).
  assert (V1 : view (mkW (fst sure) (dtwo (snd sure))) = sure1) by (apply view_two; vm_compute; reflexivity).
  rewrite V0, V1. split; [apply (trackableb_ok _ _ _ ["rain"; "wet"] ["old"; "rain"; "wet"]); vm_compute; reflexivity|]. split.
  { apply side_objects; [apply world_of_reached; vm_compute; reflexivity|apply world_of_reached; vm_compute; reflexivity|]. intros v p [E|[]]. injection E as <- <-. vm_compute. auto. }
  split; [intros v x [E|[]]; injection E as <- <-; eauto|]. split; [intros _ v [<-|[]] [E|[]]; discriminate E|].
  split; [apply fittingb_ok; vm_compute; reflexivity|]. split; [apply fittingb_ok; vm_compute; reflexivity|]. split; [intros []; cbn [succeed]; repeat split; vm_compute; reflexivity|].
  intros H. apply (f_equal (map this)) in H. vm_compute in H. discriminate.
Qed.

(** ** C41: the given network *)
(** No object of the given heap is written, whatever is called, and so both
    networks read the same. *)
Theorem C41_network_kept {SO : SetOrder} m h d cs : let s := mrun m (mcreate m h d) cs in
  (forall i, i < length h -> nth_error (mheap s) i = nth_error h i) /\
  (consistent (mkW h (db0 d)) -> view (mkW (mheap s) (db0 d)) = view (mkW h (db0 d))) /\
  (consistent (mkW h (dtwo d)) -> view (mkW (mheap s) (dtwo d)) = view (mkW h (dtwo d))).
Proof. exact (network_kept m h d cs). Qed.

(** The copy of PriorFeedbackExact does change. *)
Example C41_example : let SO := listing_order in let s := after PriorFeedback rain [MUnroll (Some wet) None; MUnroll (Some wet) None] in
  consistent (mkW rain_h (db0 rain_d)) /\ consistent (mkW rain_h (dtwo rain_d)) /\
  map this (data (tarr (ncpd (deref (mheap s) 2)))) = map this [qq 1 4; qq 3 4] /\
  map this (data (tarr (ncpd (deref (mheap s) 7)))) = map this [qq 621 703; qq 82 703].
Proof. cbv zeta. split; [exact (ob_b0 _ _ rain_objects)|]. split; [exact (ob_two _ _ rain_objects)|]. split; vm_compute; reflexivity. Qed.

(** ** C42: transitions *)
Theorem C42_add_transition_partial h d v p : consistent (mkW h (db0 d)) -> consistent (mkW h (dtwo d)) ->
  let ok := In p (bnames (view (mkW h (db0 d)))) /\ In p (bnames (view (mkW h (dtwo d)))) /\ In v (bnames (view (mkW h (dtwo d)))) in
  (ok -> add_transition d v p = (mkDbn (db0 d) (dtwo d) (dtrans d ++ [(v, p)]), Ok tt)) /\
  (~ ok -> exists e, add_transition d v p = (d, Err e) /\
     (e = StructureError \/ e = KeyError /\ In p (bnames (view (mkW h (db0 d)))) /\ ~ In p (bnames (view (mkW h (dtwo d)))))).
Proof. exact (transition_added h d v p). Qed.

Theorem C42_add_transitions h d l : consistent (mkW h (db0 d)) -> consistent (mkW h (dtwo d)) ->
  let ok := fun t : string * string => In (snd t) (bnames (view (mkW h (db0 d)))) /\ In (snd t) (bnames (view (mkW h (dtwo d)))) /\ In (fst t) (bnames (view (mkW h (dtwo d)))) in
  exists pre, fst (add_transitions d l) = mkDbn (db0 d) (dtwo d) (dtrans d ++ pre) /\ Forall ok pre /\
    (snd (add_transitions d l) = Ok tt /\ pre = l \/
     exists t post e, l = pre ++ t :: post /\ ~ ok t /\ snd (add_transitions d l) = Err e).
Proof. exact (transitions_added h d l). Qed.

(** The constructor makes an object exactly if all transitions are valid, and with them. *)
Theorem C42_constructor h b0 two l : consistent (mkW h b0) -> consistent (mkW h two) ->
  let ok := fun t : string * string => In (snd t) (bnames (view (mkW h b0))) /\ In (snd t) (bnames (view (mkW h two))) /\ In (fst t) (bnames (view (mkW h two))) in
  (Forall ok l -> new_dbn b0 two l = Ok (mkDbn b0 two l)) /\ (~ Forall ok l -> exists e, new_dbn b0 two l = Err e).
Proof. exact (dbn_made h b0 two l). Qed.

(** KeyError where StructureError is documented. *)
Theorem C42_exception_refuted : exists h d v p, objects h d /\
  In p (bnames (view (mkW h (db0 d)))) /\ ~ In p (bnames (view (mkW h (dtwo d)))) /\ add_transition d v p = (d, Err KeyError).
Proof.
  exists (fst (dbn_of rain0 duo1 [])), (snd (dbn_of rain0 duo1 [])), "a", "rain". split.
  { apply side_objects; [apply world_of_reached; vm_compute; reflexivity|apply world_of_reached; vm_compute; reflexivity|]. intros v p []. }
  split; [vm_compute; auto|]. split; [vm_compute; intuition discriminate|vm_compute; reflexivity].
Qed.

(** The setters of b0 and two_tbn let transitions refer to nodes that are gone. *)
Theorem C42_setter_refuted : exists h b0 two t g, consistent (mkW h b0) /\ consistent (mkW h two) /\ consistent (mkW h g) /\
  exists d, new_dbn b0 two [t] = Ok d /\
    ~ In (snd t) (bnames (view (mkW h (db0 (set_b0 g d))))) /\ dtrans (set_b0 g d) = [t] /\
    ~ In (snd t) (bnames (view (mkW h (dtwo (set_two g d))))) /\ dtrans (set_two g d) = [t].
Proof.
  exists rain_h, (db0 rain_d), (dtwo rain_d), ("old", "rain"), empty_net.
  split; [exact (ob_b0 _ _ rain_objects)|]. split; [exact (ob_two _ _ rain_objects)|]. split; [split; try constructor; cbn; try discriminate; try tauto; intros; (discriminate || (unfold edge in *; cbn in *; tauto) || (match goal with H : holds _ _ _ _ |- _ => destruct H as [H _]; discriminate end))|].
  eexists. split; [vm_compute; reflexivity|]. split; [intros []|]. split; [reflexivity|]. split; [intros []|reflexivity].
Qed.

Example C42_example : consistent (mkW rain_h (db0 rain_d)) /\ consistent (mkW rain_h (dtwo rain_d)) /\
  dtrans (fst (add_transitions rain_d [("wet", "wet"); ("old", "nope"); ("rain", "rain")])) = [("old", "rain"); ("wet", "wet")] /\
  snd (add_transitions rain_d [("wet", "wet"); ("old", "nope"); ("rain", "rain")]) = Err StructureError /\
  new_dbn (db0 rain_d) (dtwo rain_d) [("old", "rain"); ("wet", "wet")] = Ok (mkDbn (db0 rain_d) (dtwo rain_d) [("old", "rain"); ("wet", "wet")]).
Proof. split; [exact (ob_b0 _ _ rain_objects)|]. split; [exact (ob_two _ _ rain_objects)|]. split; [|split]; vm_compute; reflexivity. Qed.

Print Assumptions C37_time.
Print Assumptions C37_network.
Print Assumptions C37_canonical_partial.
Print Assumptions C37_failed_evidence_refuted.
Print Assumptions C38_keyword_partial.
Print Assumptions C38_keyword_refuted.
Print Assumptions C38_soft_refuted.
Print Assumptions C39_filtering_partial.
Print Assumptions C39_probabilities_partial.
Print Assumptions C40_probabilities_partial.
Print Assumptions C39_one_transition.
Print Assumptions C39_observed.
Print Assumptions C39_dependent_refuted.
Print Assumptions C39_value_order_refuted.
Print Assumptions C40_methods_partial.
Print Assumptions C40_interface_refuted.
Print Assumptions C40_excluded_refuted.
Print Assumptions C41_network_kept.
Print Assumptions C42_add_transition_partial.
Print Assumptions C42_add_transitions.
Print Assumptions C42_constructor.
Print Assumptions C42_setter_refuted.
Print Assumptions C42_exception_refuted.
