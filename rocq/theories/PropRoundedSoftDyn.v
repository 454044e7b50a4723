(** C82: filtering over time with soft evidence in rounded arithmetic. *)
From Verif Require Import Base BaseFacts NDArray Factor Exact Spec SpecFacts Checks MCSpec MCChecks Order OrderSpec JoinTree TreeSpec JTDefault JTHistory Node Network NetSpec NetView NetChecks
  Dynamic DynSpec DynPure DynHeap DynPrior DynSoft DynChecks DynUseSpec DynUse Instances ExampleNets PropDynamic FactorProofs
  Rounded RoundedSpec RoundedProof RoundedTables RoundedTop RoundedTree RoundedTreeSpec RoundedTreeProof RoundedDouble RoundedDyn RoundedDynSpec RoundedDynPure RoundedDynProof PropRounded PropRoundedDyn
  RoundedSoft RoundedSoftSpec RoundedSoftDyn RoundedSoftDynSpec RoundedSoftDynPure RoundedSoftDynProof RoundedSoftDynTop.

(** With the exact operations the program is that of Dynamic.v. *)
Theorem C82_same_program {SO : SetOrder} s ev kw Q :
  let create := create_jointree_by fmul in
  let desired := set_posteriors_by fmul marginalize1 finvert normalize (soft_ratio_by Qcdiv Qcmult) in let query := tmarginals_by fmul marginalize1 finvert normalize in
  ssset_evidence_by create desired s ev = dset_evidence SoftEvidence s ev kw /\
  ssunroll_by create desired query s ev = dunroll SoftEvidence s ev None /\
  dmarginals_by query s Q = dmarginals s Q.
Proof. exact (soft_dyn_by_exact s ev kw Q). Qed.

Section C82.
Context {RD : Rounding} {AD : Adding} {SO : SetOrder}.
Variable h : heap.
Variable d : dbnet.
Let b0 := view (mkW h (db0 d)).
Let two := view (mkW h (dtwo d)).
Variable j : nat.

(** Evidence for which the method works is accepted, unroll succeeds, and t counts the
    slices. *)
Theorem C82_succeeds s done p sh ev : trackable b0 two (dtrans d) -> own_priors j two (dtrans d) -> ssession (soft_ok b0 two (dtrans d)) h d s done p sh ->
  mt s = length done /\ (soft_ok b0 two (dtrans d) done (given ev) ->
    snd (rsset_evidence s ev) = Ok tt /\ (p <> Spoiled \/ ev <> None -> snd (rsunroll s ev) = Ok tt)).
Proof. intros TR OP S. split; [exact (soft_rounded_time h d TR j OP s done p sh S)|]. exact (soft_rounded_succeeds h d TR j OP s done p sh ev S). Qed.

(** Every answer is within a factor of (1 + ulp)^K of what exact arithmetic gives (C75),
    and asking changes nothing. *)
Theorem C82_answers s done p e evs n Q : trackable b0 two (dtrans d) -> own_priors j two (dtrans d) -> ssession (soft_ok b0 two (dtrans d)) h d s done p (Some (e :: evs)) ->
  In n (bnodes (slice_base b0 two (length evs))) -> NoDup Q -> incl Q (dn_name n :: map fst (dn_parents n)) ->
  exists f, rsmarginals s Q = (s, Ok f) /\ reports (slice_base b0 two (length evs)) f Q (potential_at f) /\
    forall q, is_inst (slice_base b0 two (length evs)) Q q ->
      close (soft_errors b0 two (dtrans d) j evs Q e) (posterior (believed b0 two (dtrans d) evs) e q) (potential_at f q).
Proof. intros TR OP. rewrite believed_slice. exact (soft_rounded_answers h d TR j OP s done p e evs n Q). Qed.

(** With one transition: within a factor of (1 + ulp)^K of the filtered probability, and
    K grows linearly with the number of slices. *)
Theorem C82_filtering s done p e evs n Q v u : trackable b0 two (dtrans d) -> own_priors j two (dtrans d) -> ssession (soft_ok b0 two (dtrans d)) h d s done p (Some (e :: evs)) ->
  dtrans d = [(v, u)] ->
  In n (bnodes (slice_base b0 two (length evs))) -> NoDup Q -> incl Q (dn_name n :: map fst (dn_parents n)) ->
  exists f, rsmarginals s Q = (s, Ok f) /\ reports (slice_base b0 two (length evs)) f Q (potential_at f) /\
    forall q, is_inst (slice_base b0 two (length evs)) Q q ->
      close (soft_errors b0 two (dtrans d) j evs Q e) (filtered b0 two (dtrans d) (e :: evs) q) (potential_at f q).
Proof.
  intros TR OP S E Hn ND I. destruct (soft_rounded_answers h d TR j OP s done p e evs n Q S Hn ND I) as (f & E1 & R & C). exists f. split; [exact E1|]. split; [exact R|]. intros q Hq.
  destruct (xi_shown _ _ _ _ _ _ _ (soft_rounded_sessions h d TR j OP _ _ _ _ S)) as (_ & L & _). apply soft_legal_evs in L.
  assert (W2 : wf_bn two) by (destruct (tr_two _ _ _ TR) as (o & _ & U); apply U).
  rewrite <- (slice_exact b0 two (dtrans d) (tr_wired _ _ _ TR) W2 (tr_nn0 _ _ _ TR) (tr_nn _ _ _ TR) evs e L); [apply C, Hq|].
  clear - E. induction evs as [|e' evs IH]; [exact Logic.I|]. split; [|exact IH]. apply (one_factorised b0 two (dtrans d) v u (e' :: evs) E).
Qed.

Theorem C82_linear evs Q e v u K : dtrans d = [(v, u)] ->
  (forall xs R x, R = Q \/ R = [u] -> In x (e :: evs) -> demand_errors b0 two (dtrans d) xs R x <= K) ->
  soft_errors b0 two (dtrans d) j evs Q e <= 2 * length evs * (K + j) + K.
Proof.
  intros E H. unfold soft_errors. assert (X : given_errors b0 two (dtrans d) j evs <= length evs * (K + j)).
  { assert (H' : forall xs x, In x evs -> demand_errors b0 two (dtrans d) xs [u] x <= K) by (intros xs x Hx; apply H; [auto|right; exact Hx]). clear H.
    induction evs as [|x l IH]; [cbn; lia|]. specialize (IH (fun xs y Hy => H' xs y (or_intror Hy))). specialize (H' l x (or_introl eq_refl)).
    cbn [given_errors]. rewrite E in *. cbn [map sumn fold_right length snd]. lia. }
  specialize (H evs Q e (or_introl eq_refl) (or_introl eq_refl)). lia.
Qed.

(** Zeros are exact. *)
Theorem C82_zeros s done p e evs n Q : trackable b0 two (dtrans d) -> own_priors j two (dtrans d) -> ssession (soft_ok b0 two (dtrans d)) h d s done p (Some (e :: evs)) ->
  In n (bnodes (slice_base b0 two (length evs))) -> NoDup Q -> incl Q (dn_name n :: map fst (dn_parents n)) ->
  exists f, rsmarginals s Q = (s, Ok f) /\ forall q, is_inst (slice_base b0 two (length evs)) Q q ->
    (potential_at f q = 0%Qc <-> posterior (believed b0 two (dtrans d) evs) e q = 0%Qc).
Proof.
  intros TR OP S Hn ND I. destruct (C82_answers s done p e evs n Q TR OP S Hn ND I) as (f & E & _ & C). exists f. split; [exact E|]. intros q Hq. symmetry. exact (close_zero _ _ _ (C q Hq)).
Qed.

(** The absolute error. *)
Theorem C82_absolute s done p e evs n Q : trackable b0 two (dtrans d) -> own_priors j two (dtrans d) -> ssession (soft_ok b0 two (dtrans d)) h d s done p (Some (e :: evs)) ->
  In n (bnodes (slice_base b0 two (length evs))) -> NoDup Q -> incl Q (dn_name n :: map fst (dn_parents n)) ->
  (qnat (soft_errors b0 two (dtrans d) j evs Q e) * ulp <= 1 / (1 + 1))%Qc ->
  exists f, rsmarginals s Q = (s, Ok f) /\ forall q, is_inst (slice_base b0 two (length evs)) Q q ->
    (potential_at f q - posterior (believed b0 two (dtrans d) evs) e q <= (1 + 1) * (qnat (soft_errors b0 two (dtrans d) j evs Q e) * ulp))%Qc /\
    (posterior (believed b0 two (dtrans d) evs) e q - potential_at f q <= (1 + 1) * (qnat (soft_errors b0 two (dtrans d) j evs Q e) * ulp))%Qc.
Proof.
  intros TR OP S Hn ND I Sm. destruct (C82_answers s done p e evs n Q TR OP S Hn ND I) as (f & E & _ & C). exists f. split; [exact E|]. intros q Hq.
  destruct (xi_shown _ _ _ _ _ _ _ (soft_rounded_sessions h d TR j OP _ _ _ _ S)) as (F & L & _). apply soft_legal_evs in L. destruct (sb_fits h d evs e (so_fits _ _ _ _ _ F)) as [EV _].
  assert (P1 : (posterior (believed b0 two (dtrans d) evs) e q <= 1)%Qc).
  { rewrite believed_slice. apply posterior_le_1; [apply (sb_wf h d TR)|apply (sb_nonneg h d TR), L|exact EV]. }
  destruct (close_abs _ _ _ (C q Hq) P1) as [X Y]. assert (G := power_linear _ Sm). set (k := soft_errors b0 two (dtrans d) j evs Q e) in *.
  assert (M : (power (1 + ulp) k - 1 <= (1 + 1) * (qnat k * ulp))%Qc).
  { replace ((1 + 1) * (qnat k * ulp))%Qc with (1 + (1 + 1) * (qnat k * ulp) - 1)%Qc by ring. apply Qcplus_le_compat; [exact G|apply Qcle_refl]. }
  split; eapply Qcle_trans; eassumption.
Qed.

(** The condition on the 2-TBN's own distributions holds if columns sum to one up to
    rounding. *)
Theorem C82_own_priors k order : trackable b0 two (dtrans d) -> topological two order -> nearly_stochastic k two ->
  own_priors (k * length (bnodes two)) two (dtrans d).
Proof.
  intros TR TO ST n Hn I. apply in_map_iff in I as ((v & p) & Ev & I). cbn in Ev. assert (W2 : wf_bn two) by (destruct (tr_two _ _ _ TR) as (o & _ & U); apply U).
  exact (root_near two W2 (tr_nn _ _ _ TR) order TO k ST n Hn (root_unique b0 two (dtrans d) (tr_wired _ _ _ TR) W2 v p n I Hn (eq_sym Ev))).
Qed.
End C82.

(** ... as they do in tables that were rounded when they were read. *)
Theorem C82_rounded_tables {RD : Rounding} k b b' : stochastic_bn b -> close_bn k b b' -> nearly_stochastic k b'.
Proof.
  intros ST (C & _) n s Hn.
  assert (X : exists m, In m (bnodes b) /\ close_node k m n).
  { clear - C Hn. induction C as [|m m' l l' H C IH]; [destruct Hn|]. destruct Hn as [<-|Hn]; [exists m; split; [left; reflexivity|exact H]|]. destruct (IH Hn) as (y & Y1 & Y2). exists y. split; [right; exact Y1|exact Y2]. }
  destruct X as (m & Hm & (E1 & E2 & E3 & E4 & E5 & F)). rewrite <- (ST m s Hm). rewrite E2 at 1. apply qsum_close.
  assert (X : forall s, close k (entry m s) (entry n s)) by (intros s'; unfold entry, aget; rewrite E1, E2, E3, E5; apply (forall2_nth k _ _ F)).
  rewrite E1. clear - X. induction (dn_values m) as [|x l IH]; cbn [map]; constructor; [apply X|exact IH].
Qed.

(** Doubles, with tables of doubles: a session with failing calls and queries. *)
Lemma close_double b : nonneg_bn b -> @close_bn double 1 b (double_bn b).
Proof.
  intros N. split; [|split; reflexivity]. unfold double_bn. cbn [bnodes].
  assert (G : forall l, incl l (bnodes b) -> Forall2 (@close_node double 1) l (map double_node l)).
  { induction l as [|n l IH]; intros I; cbn [map]; constructor.
    - do 4 (split; [reflexivity|]). split; [reflexivity|]. cbn [double_node dn_cpd amap data]. assert (F := N n (I n (or_introl eq_refl))). induction F; cbn [map]; constructor; [apply (@close_rnd double); assumption|assumption].
    - apply IH. intros m Hm. apply I. right. exact Hm. }
  apply G, incl_refl.
Qed.
Lemma drain_nearly : @nearly_stochastic double 1 drain1.
Proof.
  assert (W : wf_bn rain1) by (apply wf_bnb_ok; vm_compute; reflexivity).
  apply (C82_rounded_tables 1 rain1); [apply stochasticb_ok; [exact W|vm_compute; reflexivity]|apply close_double, nonnegb_ok; vm_compute; reflexivity].
Qed.
Lemma drain_soft_ok done e : fitting_evidence drain0 drain1 done e -> hard_only e -> (forall v, In v (dkeys e) -> v <> "old") ->
  mass (slice_bn drain0 drain1 [("old", "rain")] done) e [] <> 0%Qc -> soft_ok drain0 drain1 [("old", "rain")] done e.
Proof.
  intros F H O M. constructor; [exact F|exact H| |exact M|].
  - intros _ v J [E|[]]. apply (O v J). cbn in E. congruence.
  - intros v p x [E|[]] J _. injection E as <- <-. vm_compute in J. destruct J as [<-|[<-|[]]]; intros Z; apply (f_equal this) in Z; vm_compute in Z; discriminate.
Qed.
Lemma drain_soft_wet done : mass (slice_bn drain0 drain1 [("old", "rain")] done) wet [] <> 0%Qc -> soft_ok drain0 drain1 [("old", "rain")] done wet.
Proof. apply drain_soft_ok; [apply drain_fits_wet| |intros v [<-|[]]; discriminate]. intros v x [E|[]]. injection E as <- <-. eauto. Qed.
Lemma drain_soft_dry done : mass (slice_bn drain0 drain1 [("old", "rain")] done) dry [] <> 0%Qc -> soft_ok drain0 drain1 [("old", "rain")] done dry.
Proof. apply drain_soft_ok; [apply drain_fits_dry| |intros v [<-|[]]; discriminate]. intros v x [E|[]]. injection E as <- <-. eauto. Qed.

Definition scalls : mstate :=
  let s1 := fst (@rsunroll double pairwise listing_order (rscreate drain_h drain_d) (Some wet)) in
  let s2 := fst (@rsset_evidence double pairwise listing_order s1 (Some [("wet", Hard "t"); ("nope", Hard "t")])) in
  let s3 := fst (@rsset_evidence double pairwise listing_order s2 (Some dry)) in
  let s4 := fst (@rsunroll double pairwise listing_order s3 None) in
  fst (@rsmarginals double pairwise listing_order (fst (@rsset_evidence double pairwise listing_order s4 (Some wet))) ["rain"]).

Example C82_example : let b0 := view (mkW drain_h (db0 drain_d)) in let two := view (mkW drain_h (dtwo drain_d)) in
  trackable b0 two (dtrans drain_d) /\ topological two ["old"; "rain"; "wet"] /\ @nearly_stochastic double 1 two /\ @own_priors double 3 two (dtrans drain_d) /\ dtrans drain_d = [("old", "rain")] /\
  @ssession double pairwise listing_order (soft_ok b0 two (dtrans drain_d)) drain_h drain_d scalls [dry; wet] (Pending wet) (Some [wet; dry; wet]) /\
  (qnat (soft_errors b0 two (dtrans drain_d) 3 [dry; wet] ["rain"] wet) * @ulp double <= 1 / (1 + 1))%Qc.
Proof.
  cbv zeta. rewrite drain_v0, drain_v1. split; [exact drain_trackable|].
  assert (TO : topological drain1 ["old"; "rain"; "wet"]) by (apply topological_ok; [apply wf_bnb_ok; vm_compute; reflexivity|vm_compute; reflexivity|vm_compute; reflexivity]).
  split; [exact TO|]. split; [exact drain_nearly|].
  split; [assert (X := @C82_own_priors double drain_h drain_d 1 ["old"; "rain"; "wet"]); rewrite drain_v0, drain_v1 in X; exact (X drain_trackable TO drain_nearly)|].
  split; [reflexivity|]. change (dtrans drain_d) with [("old", "rain")]. split.
  { unfold scalls. set (ok := soft_ok drain0 drain1 [("old", "rain")]).
    assert (H1 := @SS_unroll double pairwise listing_order ok drain_h drain_d _ _ _ _ (Some wet) (@SS_create double pairwise listing_order ok drain_h drain_d) (or_introl eq_refl) (drain_soft_wet [] ltac:(intros Z; apply (f_equal this) in Z; vm_compute in Z; discriminate))).
    assert (H2 : @ssession double pairwise listing_order ok drain_h drain_d (fst (@rsset_evidence double pairwise listing_order (fst (@rsunroll double pairwise listing_order (rscreate drain_h drain_d) (Some wet))) (Some [("wet", Hard "t"); ("nope", Hard "t")]))) [wet] Nothing None).
    { eapply (@SS_failed double pairwise listing_order ok drain_h drain_d _ [wet] Nothing _ _ ValueError H1). vm_compute. reflexivity. }
    assert (H3 := @SS_evidence double pairwise listing_order ok drain_h drain_d _ _ _ _ (Some dry) H2 (drain_soft_dry [wet] ltac:(intros Z; apply (f_equal this) in Z; vm_compute in Z; discriminate))).
    assert (H4 := @SS_unroll_pending double pairwise listing_order ok drain_h drain_d _ _ _ _ H3).
    assert (H5 := @SS_evidence double pairwise listing_order ok drain_h drain_d _ _ _ _ (Some wet) H4 (drain_soft_wet [dry; wet] ltac:(intros Z; apply (f_equal this) in Z; vm_compute in Z; discriminate))).
    exact (@SS_query double pairwise listing_order ok drain_h drain_d _ _ _ _ ["rain"] H5). }
  apply qleb_true. vm_compute. reflexivity.
Qed.

Example C82_linear_example : let b0 := view (mkW drain_h (db0 drain_d)) in let two := view (mkW drain_h (dtwo drain_d)) in
  (forall xs R x, R = ["rain"] \/ R = ["rain"] -> In x [wet; dry; wet] -> demand_errors b0 two (dtrans drain_d) xs R x <= demand_errors b0 two (dtrans drain_d) [wet] ["rain"] wet).
Proof.
  cbv zeta. rewrite drain_v0, drain_v1. intros xs R x HR Hx.
  assert (HE : demand_errors drain0 drain1 (dtrans drain_d) xs ["rain"] x = demand_errors drain0 drain1 (dtrans drain_d) (firstn 1 xs) ["rain"] x) by (destruct xs as [|? [|? xs]]; reflexivity).
  replace R with ["rain"] by (destruct HR; congruence). rewrite HE.
  destruct xs as [|y xs]; cbn [firstn]; [|change (demand_errors drain0 drain1 (dtrans drain_d) [y] ["rain"] x) with (demand_errors drain0 drain1 (dtrans drain_d) [wet] ["rain"] x)];
    (destruct Hx as [<-|[<-|[<-|[]]]]); apply Nat.leb_le; vm_compute; reflexivity.
Qed.

(** The answers in doubles are not the exact ones. *)
Theorem C82_exact_refuted : exists h d j s done p e evs n Q f q,
  let b0 := view (mkW h (db0 d)) in let two := view (mkW h (dtwo d)) in
  trackable b0 two (dtrans d) /\ @own_priors double j two (dtrans d) /\ @ssession double pairwise listing_order (soft_ok b0 two (dtrans d)) h d s done p (Some (e :: evs)) /\
  In n (bnodes (slice_base b0 two (length evs))) /\ NoDup Q /\ incl Q (dn_name n :: map fst (dn_parents n)) /\ is_inst (slice_base b0 two (length evs)) Q q /\
  @rsmarginals double pairwise listing_order s Q = (s, Ok f) /\ potential_at f q <> posterior (believed b0 two (dtrans d) evs) e q.
Proof.
  destruct C82_example as (T & _ & _ & O & _ & S & _). exists drain_h, drain_d, 3, scalls, [dry; wet], (Pending wet), wet, [dry; wet].
  exists (nth 1 (bnodes drain1) (mkN "" [] [] [] (mkArr [] []))), ["rain"]. eexists. exists [("rain", "t")]. cbv zeta in *. rewrite drain_v0, drain_v1 in *.
  split; [exact T|]. split; [exact O|]. split; [exact S|]. split; [apply nth_In; vm_compute; lia|].
  split; [apply nodup_s_spec; reflexivity|]. split; [apply inclb_ok; vm_compute; reflexivity|].
  split; [split; [apply nodup_s_spec; reflexivity|split; [reflexivity|]]; intros v x [H|[]]; injection H as <- <-; vm_compute; tauto|].
  split; [vm_compute; reflexivity|]. intros H. apply (f_equal this) in H. vm_compute in H. discriminate.
Qed.

Print Assumptions C82_same_program.
Print Assumptions C82_succeeds.
Print Assumptions C82_answers.
Print Assumptions C82_filtering.
Print Assumptions C82_linear.
Print Assumptions C82_zeros.
Print Assumptions C82_absolute.
Print Assumptions C82_own_priors.
Print Assumptions C82_rounded_tables.
Print Assumptions C82_exact_refuted.
