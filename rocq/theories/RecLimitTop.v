(** Uses of a FactorTree under a recursion limit; chains exceed every limit. *)
From Coq Require Import Relations.
From Verif Require Import Base BaseFacts NDArray NDArrayFacts Factor FactorFacts Exact Spec SpecFacts
  Order OrderSpec OrderProof JoinTree HuginPure Hugin JTProof JTProof2 JTBuild JTBuild2 JTBuild3 TreeSpec JTTop JTJunction JTHistory JTAgain JTAgain2 JTAgain3 JTDefault
  PartTree RecLimit RecLimitSpec RecLimitProof.

Section Sessions.
Context {SO : SetOrder}.

Section Fail.
Variable calc : jtree -> jtree * res unit.
Variable K : jtree -> Prop.
Hypothesis KS : forall t t', skel t' = skel t -> K t -> K t'.
Hypothesis CS : forall t, skel (fst (calc t)) = skel t.
Hypothesis CF : forall t, K t -> exists t' e, calc t = (t', Err e) /\ tvalid t' = tvalid t.

Lemma marginals_fail t Q : K t -> tvalid t = false -> exists t' e, tmarginals_with calc t Q = (t', Err e) /\ tvalid t' = false.
Proof. intros H V. unfold tmarginals_with. rewrite V. destruct (CF t H) as (t' & e & -> & V'). exists t', e. split; [reflexivity|congruence]. Qed.

Lemma valid_add_ev b old p t : tvalid (fst (add_tree_evidence b old p t)) = tvalid t.
Proof. unfold add_tree_evidence. match goal with |- context [match ?x with Ok _ => _ | Err _ => _ end] => destruct x end; reflexivity. Qed.

Lemma valid_reset b t : tvalid t = false -> tvalid (fst (reset_factors b t)) = false.
Proof. intros V. unfold reset_factors. destruct (assign_factors _ _); [reflexivity|exact V]. Qed.

Lemma reset_ok_invalid b t t1 u : reset_factors b t = (t1, Ok u) -> tvalid t1 = false.
Proof. unfold reset_factors. destruct (assign_factors _ _); [|discriminate]. intros E. inversion E. reflexivity. Qed.

Lemma set_evidence_fail b ev soft t : K t -> tvalid t = false -> exists t' e, set_evidence_with calc b ev soft t = (t', Err e) /\ tvalid t' = false.
Proof.
  intros H V. unfold set_evidence_with. assert (R := skel_reset b t). assert (VR := valid_reset b t V). destruct (reset_factors b t) as [t1 [u|e]]; cbn [fst] in *; [|eauto].
  assert (H1 : K t1) by (apply (KS t); assumption). destruct soft.
  - destruct (CF t1 H1) as (t' & e & -> & V'). exists t', e. split; [reflexivity|congruence].
  - assert (E := skel_each (add_tree_evidence b []) ev t1 (fun x t _ => skel_add_ev b [] x t)).
    assert (EV := valid_each (add_tree_evidence b []) ev (fun x t => valid_add_ev b [] x t) t1).
    destruct (each (add_tree_evidence b []) ev t1) as [t3 [u'|e]]; cbn [fst] in *; [|exists t3, e; split; [reflexivity|congruence]].
    destruct (CF t3) as (t' & e & -> & V'); [apply (KS t); [congruence|exact H]|]. exists t', e. split; [reflexivity|congruence].
Qed.
End Fail.

Variable b0 : bn.
Hypothesis WB0 : wf_bn b0.
Hypothesis WG0 : wf_graph b0.
Hypothesis NN0 : nonneg_bn b0.
Hypothesis DC0 : decodable (bnames b0).

Definition placed (t : jtree) : Prop := tnodes t = [] \/ exists r, rooted t r.
Lemma placed_skel t t' : skel t' = skel t -> placed t -> placed t'.
Proof. intros S [E|(r & R)]; [left; eapply skel_empty; eassumption|right; exists r; eapply rooted_skel; eassumption]. Qed.

Lemma placed_create order t : create_jointree b0 order = Ok t -> placed t /\ tvalid t = false.
Proof.
  intros E. split.
  - destruct (create_inv b0 WB0 WG0 NN0 DC0 order t E) as (r & K). destruct (ki_root _ _ _ K); [now left|right; eauto].
  - unfold create_jointree in E. apply rbind_ok in E as (o & _ & E). apply rbind_ok in E as (cs & _ & E). apply rbind_ok in E as (L & _ & E).
    unfold assign_factors in E. apply rbind_ok in E as (ns & _ & E). inversion E; subst. cbn. apply tvalid_build.
Qed.

Lemma empty_within n t : tnodes t = [] -> calculate_messages_within n t = calculate_messages t.
Proof. intros E. unfold calculate_messages_within, calculate_messages. rewrite E. reflexivity. Qed.

Lemma shallow_placed n t : placed t -> ~ deep t n -> calculate_messages_within n t = calculate_messages t.
Proof.
  intros [E|(r & R)] D; [apply empty_within, E|]. apply (shallow_same t r n R). rewrite (deep_height t r n R) in D. lia.
Qed.

Lemma deep_placed n t : placed t -> deep t n -> exists r, rooted t r /\ n < height r.
Proof.
  intros [E|(r & R)] D; [destruct D as (root & rest & l & X & _); unfold tree_keys in X; rewrite E in X; discriminate|]. exists r. split; [exact R|]. apply (deep_height t r n R), D.
Qed.

Lemma fails_placed n t : placed t /\ deep t n -> exists t' e, calculate_messages_within n t = (t', Err e) /\ tvalid t' = tvalid t.
Proof. intros [P D]. destruct (deep_placed n t P D) as (r & R & H). apply (deep_fails t r n R H). Qed.

Lemma pd_skel n t t' : skel t' = skel t -> placed t /\ deep t n -> placed t' /\ deep t' n.
Proof. intros S [P D]. split; [eapply placed_skel; eassumption|eapply deep_skel; [symmetry; exact S|exact D]]. Qed.

Lemma session_within_facts limit order t : session_within limit b0 order t ->
  exists t0, create_jointree b0 order = Ok t0 /\ skel t = skel t0 /\ (deep t limit -> tvalid t = false).
Proof.
  induction 1 as [t E|b ev soft t S IH|b t S IH|t S IH|Q t S IH].
  - exists t. split; [exact E|]. split; [reflexivity|]. intros _. apply (placed_create order t E).
  - destruct IH as (t0 & E & Sk & V). exists t0. split; [exact E|]. assert (S1 := skel_set_evidence_with (calculate_messages_within limit) (skel_calc_within limit) b ev soft t).
    split; [unfold set_evidence_within; congruence|]. intros D. apply (deep_skel _ t) in D; [|exact S1].
    destruct (set_evidence_fail (calculate_messages_within limit) (fun t => placed t /\ deep t limit) (pd_skel limit) (fails_placed limit) b ev soft t) as (t' & e & X & V').
    + split; [|exact D]. eapply placed_skel; [exact Sk|]. apply (placed_create order t0 E).
    + apply V, D.
    + unfold set_evidence_within. rewrite X. exact V'.
  - destruct IH as (t0 & E & Sk & V). exists t0. split; [exact E|]. assert (S1 := skel_reset b t). split; [congruence|]. intros D. apply valid_reset, V. eapply deep_skel; [exact S1|exact D].
  - destruct IH as (t0 & E & Sk & V). exists t0. split; [exact E|]. assert (S1 := skel_calc_within limit t). split; [congruence|]. intros D. apply (deep_skel _ t) in D; [|exact S1].
    destruct (fails_placed limit t) as (t' & e & X & V').
    + split; [|exact D]. eapply placed_skel; [exact Sk|]. apply (placed_create order t0 E).
    + rewrite X. cbn. rewrite V'. apply V, D.
  - destruct IH as (t0 & E & Sk & V). exists t0. split; [exact E|]. assert (S1 := skel_marginals_with (calculate_messages_within limit) (skel_calc_within limit) t Q).
    split; [unfold tmarginals_within; congruence|]. intros D. apply (deep_skel _ t) in D; [|exact S1].
    destruct (marginals_fail (calculate_messages_within limit) (fun t => placed t /\ deep t limit) (fails_placed limit) t Q) as (t' & e & X & V').
    + split; [|exact D]. eapply placed_skel; [exact Sk|]. apply (placed_create order t0 E).
    + apply V, D.
    + unfold tmarginals_within. rewrite X. exact V'.
Qed.

Lemma session_within_placed limit order t : session_within limit b0 order t -> placed t.
Proof. intros H. destruct (session_within_facts limit order t H) as (t0 & E & Sk & _). eapply placed_skel; [exact Sk|]. apply (placed_create order t0 E). Qed.

Theorem within_limit limit order t : session_within limit b0 order t -> ~ deep t limit ->
  calculate_messages_within limit t = calculate_messages t /\
  (forall Q, tmarginals_within limit t Q = tmarginals t Q) /\
  (forall b ev soft, set_evidence_within limit b ev soft t = set_evidence b ev soft t).
Proof.
  intros H D. assert (P := session_within_placed limit order t H). set (K := fun t => placed t /\ ~ deep t limit).
  assert (KS : forall t t', skel t' = skel t -> K t -> K t').
  { intros x y S [A B]. split; [eapply placed_skel; eassumption|]. intros X. apply B. eapply deep_skel; eassumption. }
  assert (CC : forall t, K t -> calculate_messages_within limit t = calculate_messages t) by (intros x [A B]; apply shallow_placed; assumption).
  split; [apply CC; split; assumption|]. split.
  - intros Q. unfold tmarginals_within. rewrite (marginals_agree _ calculate_messages K CC t Q (conj P D)). apply with_messages.
  - intros b ev soft. unfold set_evidence_within. rewrite (set_evidence_agree _ calculate_messages K KS CC (skel_calc_within limit) b ev soft t (conj P D)). apply with_evidence.
Qed.

Theorem over_limit limit order t : session_within limit b0 order t -> deep t limit ->
  (forall Q, exists e, snd (tmarginals_within limit t Q) = Err e) /\
  (forall b ev soft, exists e, snd (set_evidence_within limit b ev soft t) = Err e).
Proof.
  intros H D. assert (P := session_within_placed limit order t H). destruct (session_within_facts limit order t H) as (_ & _ & _ & V). specialize (V D). split.
  - intros Q. destruct (marginals_fail (calculate_messages_within limit) (fun t => placed t /\ deep t limit) (fails_placed limit) t Q (conj P D) V) as (t' & e & X & _).
    exists e. unfold tmarginals_within. rewrite X. reflexivity.
  - intros b ev soft. destruct (set_evidence_fail (calculate_messages_within limit) (fun t => placed t /\ deep t limit) (pd_skel limit) (fails_placed limit) b ev soft t (conj P D) V) as (t' & e & X & _).
    exists e. unfold set_evidence_within. rewrite X. reflexivity.
Qed.

(** Which exception. *)
Lemma placed_recursion limit t t' : placed t -> deep t limit -> calculate_messages t = (t', Ok tt) -> snd (calculate_messages_within limit t) = Err RecursionError.
Proof. intros P D E. destruct (deep_placed limit t P D) as (r & R & H). apply (deep_recursion t r limit t' R H E). Qed.

Theorem over_limit_error limit order o t : order_or_default b0 order = Ok o -> suits b0 o -> session_within limit b0 order t -> deep t limit ->
  (forall b ev soft, same_arcs b0 b -> wf_bn b -> nonneg_bn b -> ev_ok b ev -> incl (dkeys ev) (bnames b) ->
     snd (set_evidence_within limit b ev soft t) = Err RecursionError) /\
  (forall b Q, same_arcs b0 b -> wf_bn b -> nonneg_bn b -> snd (tmarginals_within limit (fst (reset_factors b t)) Q) = Err RecursionError).
Proof.
  intros EO SU H D. assert (P := session_within_placed limit order t H). destruct (session_within_facts limit order t H) as (t0 & E & Sk & V). specialize (V D).
  destruct (create_ok b0 o order SU NN0 EO) as (t0' & r & sv & E' & J & _ & _). rewrite E in E'. inversion E'; subst t0'. clear E'.
  assert (JB : forall b, same_arcs b0 b -> jt_ok b t r sv) by (intros b SA; eapply jt_ok_same; [apply same_arcs_families, SA|symmetry; exact Sk|exact J]).
  assert (RE : forall b, same_arcs b0 b -> wf_bn b -> nonneg_bn b -> exists t1 t2, reset_factors b t = (t1, Ok tt) /\ tvalid t1 = false /\ skel t1 = skel t /\ calculate_messages t1 = (t2, Ok tt)).
  { intros b SA WB NN. destruct (reset_loaded b WB t r sv NN (JB b SA)) as (t1 & E1 & S1 & V1 & L1).
    destruct (calculate_calibrates b WB t1 r sv (tables b)) as (t2 & E2 & _); [eapply jt_ok_same; [reflexivity|symmetry; exact S1|apply JB, SA]|exact L1|]. exists t1, t2. auto. }
  assert (PD : forall x, skel x = skel t -> placed x /\ deep x limit) by (intros x Sx; apply (pd_skel limit t x Sx); auto).
  split.
  - intros b ev soft SA WB NN EV K. destruct (RE b SA WB NN) as (t1 & t2 & E1 & V1 & S1 & E2). destruct soft.
    + unfold set_evidence_within, set_evidence_with. rewrite E1. destruct (PD t1 S1) as [P1 D1].
      assert (X := placed_recursion limit t1 t2 P1 D1 E2). destruct (calculate_messages_within limit t1) as [t' r']. cbn [snd] in X. subst r'. reflexivity.
    + destruct (set_evidence_calibrates b WB ev t r sv NN EV K (JB b SA)) as (t' & E' & _). revert E'.
      unfold set_evidence_within, set_evidence_with, set_evidence. rewrite E1.
      assert (S2 := skel_each (add_tree_evidence b []) ev t1 (fun x t _ => skel_add_ev b [] x t)).
      destruct (each (add_tree_evidence b []) ev t1) as [t3 [u|e]]; [|discriminate]. cbn [fst] in S2. intros E3.
      destruct (PD t3) as [P3 D3]; [congruence|]. apply (placed_recursion limit t3 t' P3 D3 E3).
  - intros b Q SA WB NN. destruct (RE b SA WB NN) as (t1 & t2 & E1 & V1 & S1 & E2). rewrite E1. cbn [fst]. unfold tmarginals_within, tmarginals_with. rewrite V1.
    destruct (PD t1 S1) as [P1 D1]. assert (X := placed_recursion limit t1 t2 P1 D1 E2). destruct (calculate_messages_within limit t1) as [t' r']. cbn [snd] in X. subst r'. reflexivity.
Qed.

Theorem over_limit_first limit order o t Q : order_or_default b0 order = Ok o -> suits b0 o -> create_jointree b0 order = Ok t -> deep t limit ->
  snd (tmarginals_within limit t Q) = Err RecursionError.
Proof.
  intros EO SU E D. destruct (placed_create order t E) as [P V].
  destruct (create_ok b0 o order SU NN0 EO) as (t0 & r & sv & E' & J & _ & L). rewrite E in E'. inversion E'; subst t0. clear E'.
  destruct (calculate_calibrates b0 WB0 t r sv (tables b0) J L) as (t2 & E2 & _). unfold tmarginals_within, tmarginals_with. rewrite V.
  assert (X := placed_recursion limit t t2 P D E2). destruct (calculate_messages_within limit t) as [t' r']. cbn [snd] in X. subst r'. reflexivity.
Qed.
End Sessions.
