(** Property C55: evidence written as named values, as indicator weights, with scaled
    weights or with equal weights. *)
From Verif Require Import Base BaseFacts NDArray Factor Exact Spec SpecFacts Order OrderSpec FactorSpec FactorProofs VEProof2 Checks Instances ExampleNets
  PropVE JoinTree TreeSpec JTProof JTTop JTHistory PropTree EvSpec EvForms.

(** A named value and the indicator of it give the same results, for all networks and
    all three algorithms, whatever the rest of the evidence; exceptions included. *)
Theorem C55_indicator {SO : SetOrder} b Q ev ev' o t : wf_bn b -> respelled b ev ev' ->
  naive_marginals b Q ev' = naive_marginals b Q ev /\
  bucket_query b Q ev' o = bucket_query b Q ev o /\
  set_evidence b ev' false t = set_evidence b ev false t.
Proof. intros WB R. split; [now apply naive_spelling|]. split; [now apply bucket_spelling|]. now apply tree_spelling. Qed.

(** ... also as a desired posterior, for trees with any history. *)
Theorem C55_indicator_posterior {SO : SetOrder} b0 t k b ev ev' : reaches b0 t k -> same_arcs b0 b -> wf_bn b -> nonneg_bn b ->
  incl (dkeys ev) (bnames b) -> respelled b ev ev' -> set_evidence b ev' true t = set_evidence b ev true t.
Proof.
  intros R SA WB NN K RE. destruct (history _ _ _ R) as [(r & sv & J) _].
  apply (tree_spelling_soft b WB ev ev' t r sv); try assumption. eapply jt_ok_same; [apply same_arcs_families, SA|reflexivity|exact J].
Qed.

(** Multiplying the weights of a variable by a positive number changes no answer. *)
Theorem C55_scale {SO : SetOrder} b Q ev ev' o : wf_bn b -> nonneg_bn b -> ev_ok b ev -> incl (dkeys ev) (bnames b) -> NoDup Q -> incl Q (bnames b) ->
  (o = None \/ o = Some [] -> wf_graph b) -> (forall l, o = Some l -> l <> [] -> Permutation (bnames b) l) -> rescaled ev ev' ->
  exists f f' g g', naive_marginals b Q ev = Ok f /\ naive_marginals b Q ev' = Ok f' /\ bucket_query b Q ev o = Ok g /\ bucket_query b Q ev' o = Ok g' /\
    forall q, is_inst b Q q -> potential_at f' q = potential_at f q /\ potential_at g' q = potential_at g q.
Proof.
  intros WB NN EV K ND I G P R. assert (EV' := rescaled_ok b ev ev' R EV). assert (K' : incl (dkeys ev') (bnames b)) by now rewrite (rescaled_keys _ _ R).
  destruct (naive_reports b WB Q ev NN EV I) as (f & E1 & R1). destruct (naive_reports b WB Q ev' NN EV' I) as (f' & E2 & R2).
  destruct (bucket_any_order b WB Q ev o NN EV K ND I G P) as (g & E3 & R3). destruct (bucket_any_order b WB Q ev' o NN EV' K' ND I G P) as (g' & E4 & R4).
  exists f, f', g, g'. do 4 (split; [assumption|]). intros q IQ.
  destruct R1 as (_ & _ & _ & _ & _ & _ & R1), R2 as (_ & _ & _ & _ & _ & _ & R2), R3 as (_ & _ & _ & _ & _ & _ & R3), R4 as (_ & _ & _ & _ & _ & _ & R4).
  rewrite R1, R2, R3, R4 by exact IQ. split; apply posterior_scaled, rescaled_scales, R.
Qed.

Theorem C55_scale_tree {SO : SetOrder} b0 t k b ev ev' Q : reaches b0 t k -> same_arcs b0 b -> wf_bn b -> nonneg_bn b -> ev_ok b ev -> incl (dkeys ev) (bnames b) ->
  rescaled ev ev' -> NoDup Q -> answers t Q ->
  exists f f', snd (tmarginals (fst (set_evidence b ev false t)) Q) = Ok f /\ snd (tmarginals (fst (set_evidence b ev' false t)) Q) = Ok f' /\
    forall q, is_inst b Q q -> potential_at f' q = potential_at f q.
Proof.
  intros R SA WB NN EV K RS ND A. assert (EV' := rescaled_ok b ev ev' RS EV). assert (K' : incl (dkeys ev') (bnames b)) by now rewrite (rescaled_keys _ _ RS).
  destruct (history_marginals b0 _ b ev false Q (R_evidence b0 b ev t k R SA WB NN EV K) ND) as (e & f & -> & E & F).
  { apply (calls_succeed b0 t k b ev R SA WB NN EV K), A. }
  destruct (history_marginals b0 _ b ev' false Q (R_evidence b0 b ev' t k R SA WB NN EV' K') ND) as (e & f' & -> & E' & F').
  { apply (calls_succeed b0 t k b ev' R SA WB NN EV' K'), A. }
  exists f, f'. split; [exact E|]. split; [exact E'|]. intros q IQ. destruct F as (_ & _ & _ & _ & _ & _ & F), F' as (_ & _ & _ & _ & _ & _ & F').
  rewrite F, F' by exact IQ. apply posterior_scaled, rescaled_scales, RS.
Qed.

(** Equal weights for all values of a variable say nothing about it. *)
Theorem C55_vacuous {SO : SetOrder} b Q ev ev' o : wf_bn b -> nonneg_bn b -> ev_ok b ev -> incl (dkeys ev) (bnames b) -> NoDup Q -> incl Q (bnames b) ->
  (o = None \/ o = Some [] -> wf_graph b) -> (forall l, o = Some l -> l <> [] -> Permutation (bnames b) l) -> weakened b ev ev' ->
  exists f f' g g', naive_marginals b Q ev = Ok f /\ naive_marginals b Q ev' = Ok f' /\ bucket_query b Q ev o = Ok g /\ bucket_query b Q ev' o = Ok g' /\
    forall q, is_inst b Q q -> potential_at f' q = potential_at f q /\ potential_at g' q = potential_at g q.
Proof.
  intros WB NN EV K ND I G P W. assert (EV' := weakened_ok b ev ev' W EV).
  assert (K' : incl (dkeys ev') (bnames b)) by (intros v V; apply K; now apply (weakened_keys b ev ev' W)).
  destruct (naive_reports b WB Q ev NN EV I) as (f & E1 & R1). destruct (naive_reports b WB Q ev' NN EV' I) as (f' & E2 & R2).
  destruct (bucket_any_order b WB Q ev o NN EV K ND I G P) as (g & E3 & R3). destruct (bucket_any_order b WB Q ev' o NN EV' K' ND I G P) as (g' & E4 & R4).
  exists f, f', g, g'. do 4 (split; [assumption|]). intros q IQ.
  destruct R1 as (_ & _ & _ & _ & _ & _ & R1), R2 as (_ & _ & _ & _ & _ & _ & R2), R3 as (_ & _ & _ & _ & _ & _ & R3), R4 as (_ & _ & _ & _ & _ & _ & R4).
  rewrite R1, R2, R3, R4 by exact IQ. assert (S := weakened_scales b WB ev ev' (proj1 EV) W). now split; rewrite (posterior_scaled b ev' ev q S).
Qed.

Theorem C55_vacuous_tree {SO : SetOrder} b0 t k b ev ev' Q : reaches b0 t k -> same_arcs b0 b -> wf_bn b -> nonneg_bn b -> ev_ok b ev -> incl (dkeys ev) (bnames b) ->
  weakened b ev ev' -> NoDup Q -> answers t Q ->
  exists f f', snd (tmarginals (fst (set_evidence b ev false t)) Q) = Ok f /\ snd (tmarginals (fst (set_evidence b ev' false t)) Q) = Ok f' /\
    forall q, is_inst b Q q -> potential_at f' q = potential_at f q.
Proof.
  intros R SA WB NN EV K W ND A. assert (EV' := weakened_ok b ev ev' W EV).
  assert (K' : incl (dkeys ev') (bnames b)) by (intros v V; apply K; now apply (weakened_keys b ev ev' W)).
  destruct (history_marginals b0 _ b ev false Q (R_evidence b0 b ev t k R SA WB NN EV K) ND) as (e & f & -> & E & F).
  { apply (calls_succeed b0 t k b ev R SA WB NN EV K), A. }
  destruct (history_marginals b0 _ b ev' false Q (R_evidence b0 b ev' t k R SA WB NN EV' K') ND) as (e & f' & -> & E' & F').
  { apply (calls_succeed b0 t k b ev' R SA WB NN EV' K'), A. }
  exists f, f'. split; [exact E|]. split; [exact E'|]. intros q IQ. destruct F as (_ & _ & _ & _ & _ & _ & F), F' as (_ & _ & _ & _ & _ & _ & F').
  rewrite F, F' by exact IQ. symmetry. apply posterior_scaled, weakened_scales; [exact WB|apply EV|exact W].
Qed.

Definition ev_hot : evidence := [("D", Soft [1%Qc; 0%Qc]); ("B", Soft [qq 1 2; qq 1 1; 0%Qc])].
Definition ev_scaled : evidence := [("D", Hard "t"); ("B", Soft [qq 3 2; qq 3 1; 0%Qc])].
Example C55_example : wf_bn net /\ nonneg_bn net /\ ev_ok net ev_example /\ incl (dkeys ev_example) (bnames net) /\ respelled net ev_example ev_hot /\
  rescaled ev_example ev_scaled /\ ev_ok net [("A", Soft [qq 1 2; qq 1 2]); ("D", Hard "t")] /\
  weakened net [("A", Soft [qq 1 2; qq 1 2]); ("D", Hard "t")] [("D", Hard "t")] /\ wf_graph net.
Proof.
  split; [exact net_wf|]. split; [exact net_nonneg|]. split; [exact net_ev|]. split; [exact net_ev_keys|]. split.
  { apply (RE_hot net "D" "t"); [vm_compute; tauto|]. apply RE_same, RE_nil. }
  split; [apply RS_same; assert (E : [qq 3 2; qq 3 1; 0%Qc] = map (Qcmult (qq 3 1)) [qq 1 2; qq 1 1; 0%Qc]) by qlist; unfold ev_scaled; rewrite E;
    apply RS_times; [reflexivity|apply RS_nil]|].
  split; [apply ev_okb_ok; vm_compute; reflexivity|]. split; [|exact net_graph]. apply (WK_drop net "A" (qq 1 2)); [reflexivity|]. apply WK_same, WK_nil.
Qed.

(** The factor has to be positive: all-zero weights make the evidence impossible. *)
Theorem C55_zero_scale_differs : exists (SO : SetOrder) b Q q f f', wf_bn b /\ nonneg_bn b /\ is_inst b Q q /\
  naive_marginals b Q [("A", Soft [1%Qc; 1%Qc])] = Ok f /\ naive_marginals b Q [("A", Soft [0%Qc; 0%Qc])] = Ok f' /\ potential_at f' q <> potential_at f q.
Proof.
  exists listing_order, net, ["A"], [("A", "t")]. do 2 eexists. split; [exact net_wf|]. split; [exact net_nonneg|]. split.
  { split; [apply nodup_s_spec; reflexivity|]. split; [reflexivity|]. intros v x [E|[]]. inversion E. vm_compute. tauto. }
  split; [vm_compute; reflexivity|]. split; [vm_compute; reflexivity|]. intros H. apply (f_equal this) in H. vm_compute in H. discriminate.
Qed.

Print Assumptions C55_indicator.
Print Assumptions C55_indicator_posterior.
Print Assumptions C55_scale.
Print Assumptions C55_scale_tree.
Print Assumptions C55_vacuous.
Print Assumptions C55_vacuous_tree.
Print Assumptions C55_zero_scale_differs.
