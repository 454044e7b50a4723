(** Laws of probability across queries. *)
From Coq Require Import Field.
From Verif Require Import Base BaseFacts NDArray Factor FactorFacts Exact Spec SpecFacts Order OrderSpec FactorSpec FactorProofs VEProof2
  JoinTree TreeSpec Hugin JTProof JTTop JTJunction JTHistory LawKernel LawPost PropVE PropTree SameSpec SameProof CoherentSpec.

Lemma agrees_cons v x q s : agrees ((v, x) :: q) s = (String.eqb (look s v) x && agrees q s)%bool.
Proof. reflexivity. Qed.

(** Summing out a variable of the query. *)
Lemma mass_out b ev v q : wf_bn b -> In v (bnames b) -> qsum (map (fun x => mass b ev ((v, x) :: q)) (values_of b v)) = mass b ev q.
Proof.
  intros WB Hv. apply in_map_iff in Hv as (n & E & Hn). subst v. rewrite (values_of_node b WB n Hn).
  assert (ND := proj2 (wn_values b n (wb_nodes b WB n Hn))). unfold mass.
  rewrite (qsum_map_ext _ (fun x => qsum (map (fun s => if agrees ((dn_name n, x) :: q) s then weight b ev s else 0%Qc) (states (bvars b)))))
    by (intros x _; apply qsum_filter).
  rewrite qsum_swap, qsum_filter. apply qsum_map_ext. intros s Hs. destruct (state_whole b s (wb_names b WB) Hs n Hn) as (x & D & I).
  assert (L : look s (dn_name n) = x) by (unfold look; rewrite D; reflexivity).
  rewrite (qsum_map_ext _ (fun y => if String.eqb x y then (if agrees q s then weight b ev s else 0%Qc) else 0%Qc)).
  2:{ intros y _. rewrite agrees_cons, L. destruct (String.eqb x y); reflexivity. }
  clear -ND I. generalize (if agrees q s then weight b ev s else 0%Qc) as z. intros z. induction (dn_values n) as [|y l IH]; [destruct I|].
  apply NoDup_cons_iff in ND as [N ND]. cbn [map qsum]. destruct I as [->|I].
  - rewrite eqb_refl_s. replace (qsum (map (fun y => if String.eqb x y then z else 0%Qc) l)) with 0%Qc; [ring|]. symmetry. apply qsum_zero. intros y Hy.
    rewrite eqb_neq_s; [reflexivity|]. intros ->. exact (N Hy).
  - rewrite (IH ND I), eqb_neq_s; [ring|]. intros ->. exact (N I).
Qed.

(** A further observation selects the states in which it holds. *)
Lemma mass_observed b ev ev' v x q : wf_bn b -> In v (bnames b) -> observes v x ev ev' -> mass b ev' q = mass b ev ((v, x) :: q).
Proof.
  intros WB Hv (N & O & R). unfold mass. rewrite !qsum_filter. apply qsum_map_ext. intros s _. rewrite agrees_cons.
  assert (W : weight b ev' s = if String.eqb (look s v) x then weight b ev s else 0%Qc).
  { assert (E : qprod (map (fun n => evidence_weight ev' n s) (bnodes b)) =
      if String.eqb (look s v) x then qprod (map (fun n => evidence_weight ev n s) (bnodes b)) else 0%Qc).
    { assert (ND := wb_names b WB). unfold bnames in Hv, ND. clear WB.
      assert (EQ : forall n, dn_name n <> v -> evidence_weight ev' n s = evidence_weight ev n s).
      { intros n Hn. unfold evidence_weight. rewrite (R _ Hn). reflexivity. }
      assert (REST : forall l, ~ In v (map dn_name l) -> map (fun n => evidence_weight ev' n s) l = map (fun n => evidence_weight ev n s) l).
      { intros l Hl. apply map_ext_in. intros n Hn. apply EQ. intros <-. apply Hl, in_map, Hn. }
      induction (bnodes b) as [|n l IH]; [destruct Hv|]. cbn [map] in Hv, ND |- *. apply NoDup_cons_iff in ND as [N1 ND]. cbn [qprod].
      destruct (String.eqb_spec (dn_name n) v) as [E|NE].
      - rewrite REST by (rewrite <- E; exact N1). unfold evidence_weight at 1 3. rewrite E, O, N. destruct (String.eqb (look s v) x); ring.
      - rewrite (EQ n NE). destruct Hv as [E|Hv]; [congruence|]. rewrite (IH Hv ND). destruct (String.eqb (look s v) x); ring. }
    unfold weight. rewrite E. destruct (String.eqb (look s v) x); ring. }
  rewrite W. destruct (String.eqb (look s v) x), (agrees q s); reflexivity.
Qed.

Section Laws.
Variable b : bn.
Hypotheses (WB : wf_bn b) (NN : nonneg_bn b).

Lemma posterior_out ev v q : In v (bnames b) -> qsum (map (fun x => posterior b ev ((v, x) :: q)) (values_of b v)) = posterior b ev q.
Proof.
  intros Hv. unfold posterior. destruct (qeqb (mass b ev []) 0%Qc).
  - apply qsum_zero. intros x _. reflexivity.
  - rewrite <- (mass_out b ev v q WB Hv). unfold Qcdiv. rewrite (Qcmult_comm (qsum _)), <- qsum_mult_l.
    apply qsum_map_ext. intros x _. apply Qcmult_comm.
Qed.

Lemma posterior_chain ev ev' v x q : ev_ok b ev' -> In v (bnames b) -> observes v x ev ev' ->
  posterior b ev ((v, x) :: q) = (posterior b ev [(v, x)] * posterior b ev' q)%Qc.
Proof.
  intros EV Hv O. unfold posterior. destruct (qeqb (mass b ev []) 0%Qc) eqn:Z; [ring|].
  assert (Z' : mass b ev [] <> 0%Qc) by (intros E; apply qeqb_true in E; congruence).
  rewrite <- !(mass_observed b ev ev' v x _ WB Hv O). destruct (qeqb (mass b ev' []) 0%Qc) eqn:Y.
  - apply qeqb_true in Y. rewrite (mass_zero b NN ev' q EV Y). unfold Qcdiv. ring.
  - assert (Y' : mass b ev' [] <> 0%Qc) by (intros E; apply qeqb_true in E; congruence). field. split; assumption.
Qed.

Lemma posterior_sure ev v x y : ev_ok b ev -> In v (bnames b) -> dget v ev = Some (Hard x) -> mass b ev [] <> 0%Qc ->
  posterior b ev [(v, y)] = if String.eqb y x then 1%Qc else 0%Qc.
Proof.
  intros EV Hv O Z. unfold posterior. destruct (qeqb (mass b ev []) 0%Qc) eqn:E; [apply qeqb_true in E; congruence|].
  assert (M : mass b ev [(v, y)] = if String.eqb y x then mass b ev [] else 0%Qc).
  { unfold mass. rewrite !qsum_filter. destruct (String.eqb_spec y x) as [->|NE].
    - apply qsum_map_ext. intros s _. rewrite agrees_cons. cbn [agrees forallb]. destruct (String.eqb_spec (look s v) x) as [_|N]; [reflexivity|]. cbn [andb].
      unfold weight. apply in_map_iff in Hv as (n & <- & Hn). rewrite (qprod_zero (map (fun n => evidence_weight ev n s) (bnodes b))); [ring|].
      apply in_map_iff. exists n. split; [|exact Hn]. unfold evidence_weight. rewrite O, eqb_neq_s by exact N. reflexivity.
    - apply qsum_zero. intros s _. rewrite agrees_cons. destruct (String.eqb_spec (look s v) y) as [L|_]; [|reflexivity]. cbn [andb agrees forallb].
      unfold weight. apply in_map_iff in Hv as (n & <- & Hn). rewrite (qprod_zero (map (fun n => evidence_weight ev n s) (bnodes b))); [ring|].
      apply in_map_iff. exists n. split; [|exact Hn]. unfold evidence_weight. rewrite O, L, eqb_neq_s by exact NE. reflexivity. }
  rewrite M. destruct (String.eqb y x); [|unfold Qcdiv; ring]. field. exact Z.
Qed.

(** Everything that [answer] allows reports the posterior. *)
Lemma answer_reports ev Q f : asked b ev Q -> answer b ev Q f -> reports b f Q (posterior b ev).
Proof.
  intros (EV & K & ND & I) [SO E|SO o G O E|SO o order t t' SU EO EC A SE E].
  - destruct (C11_naive_is_posterior b Q ev WB NN EV I) as (r & E' & R). congruence.
  - destruct (C12_bucket_is_posterior b Q ev o WB NN EV K ND I G O) as (r & E' & R). congruence.
  - destruct (C15_tree_is_posterior_partial b o order t ev Q SU NN EO EC EV K ND A) as (t1 & r & E1 & E2 & R). rewrite SE in E1. injection E1 as <-. congruence.
Qed.

Lemma answer_at ev Q f q : asked b ev Q -> answer b ev Q f -> is_inst b Q q -> potential_at f q = posterior b ev q.
Proof. intros A F I. apply (answer_reports ev Q f A F). exact I. Qed.

Lemma inst_cons v x Q q : ~ In v Q -> In x (values_of b v) -> is_inst b Q q -> is_inst b (v :: Q) ((v, x) :: q).
Proof.
  intros N X (A & B & D). split; [|split].
  - cbn. apply NoDup_cons; [|exact A]. intros H. apply N, B, H.
  - intros u. cbn. rewrite (B u). reflexivity.
  - intros u y [E|H]; [injection E as <- <-; exact X|exact (D u y H)].
Qed.

Lemma inst_one v x : In x (values_of b v) -> is_inst b [v] [(v, x)].
Proof.
  intros X. split; [repeat constructor; intros []|]. split; [reflexivity|]. intros u y [E|[]]. injection E as <- <-. exact X.
Qed.

Lemma asked_tail ev v Q : asked b ev (v :: Q) -> asked b ev Q /\ asked b ev [v] /\ ~ In v Q /\ In v (bnames b).
Proof.
  intros (EV & K & ND & I). apply NoDup_cons_iff in ND as [N ND]. assert (Hv := I v (or_introl eq_refl)).
  split; [|split; [|split; assumption]].
  - split; [exact EV|]. split; [exact K|]. split; [exact ND|]. intros u Hu. apply I. right. exact Hu.
  - split; [exact EV|]. split; [exact K|]. split; [repeat constructor; intros []|]. intros u [<-|[]]. exact Hv.
Qed.

Theorem answers_out ev v Q f g q : asked b ev (v :: Q) -> answer b ev (v :: Q) f -> answer b ev Q g -> is_inst b Q q ->
  qsum (map (fun x => potential_at f ((v, x) :: q)) (values_of b v)) = potential_at g q.
Proof.
  intros A F G I. destruct (asked_tail ev v Q A) as (A1 & _ & N & Hv). rewrite (answer_at ev Q g q A1 G I), <- (posterior_out ev v q Hv).
  apply qsum_map_ext. intros x X. apply (answer_at ev (v :: Q) f _ A F). apply inst_cons; assumption.
Qed.

Lemma observes_asked ev ev' v x Q : asked b ev (v :: Q) -> observes v x ev ev' -> NoDup (dkeys ev') -> In x (values_of b v) -> asked b ev' Q.
Proof.
  intros A (N & O & R) ND X. destruct (asked_tail ev v Q A) as (((_ & EV) & K & NQ & I) & _ & NV & Hv).
  assert (P : forall u e, In (u, e) ev' -> (u = v /\ e = Hard x) \/ In (u, e) ev).
  { intros u e H. apply In_dget in H; [|exact ND]. destruct (String.eqb_spec u v) as [->|NE]; [left; split; congruence|]. rewrite (R u NE) in H. right. exact (dget_In _ _ _ H). }
  split; [split; [exact ND|]|split; [|split; [exact NQ|exact I]]].
  - intros u e H. destruct (P u e H) as [[-> ->]|H']; [intros _; exact X|exact (EV u e H')].
  - intros u Hu. apply in_map_iff in Hu as ((u', e) & <- & H). cbn [fst]. destruct (P u' e H) as [[-> _]|H']; [exact Hv|]. apply K. exact (in_map fst _ _ H').
Qed.

Theorem answers_chain ev ev' v x Q f g h q : asked b ev (v :: Q) -> observes v x ev ev' -> NoDup (dkeys ev') -> In x (values_of b v) ->
  answer b ev (v :: Q) f -> answer b ev [v] g -> answer b ev' Q h -> is_inst b Q q ->
  potential_at f ((v, x) :: q) = (potential_at g [(v, x)] * potential_at h q)%Qc.
Proof.
  intros A O ND X F G H I. destruct (asked_tail ev v Q A) as (A1 & A2 & N & Hv). assert (A3 := observes_asked ev ev' v x Q A O ND X).
  rewrite (answer_at ev (v :: Q) f _ A F (inst_cons v x Q q N X I)), (answer_at ev [v] g _ A2 G (inst_one v x X)), (answer_at ev' Q h q A3 H I).
  apply posterior_chain; [exact (proj1 A3)|exact Hv|exact O].
Qed.

Theorem answers_total ev (evx : string -> evidence) v Q g k (h : string -> factor) q : asked b ev (v :: Q) ->
  (forall x, In x (values_of b v) -> observes v x ev (evx x) /\ NoDup (dkeys (evx x)) /\ answer b (evx x) Q (h x)) ->
  answer b ev [v] g -> answer b ev Q k -> is_inst b Q q ->
  qsum (map (fun x => potential_at g [(v, x)] * potential_at (h x) q)%Qc (values_of b v)) = potential_at k q.
Proof.
  intros A H G K I. destruct (asked_tail ev v Q A) as (A1 & A2 & N & Hv). rewrite (answer_at ev Q k q A1 K I), <- (posterior_out ev v q Hv).
  apply qsum_map_ext. intros x X. destruct (H x X) as (O & ND & Hx). assert (A3 := observes_asked ev (evx x) v x Q A O ND X).
  rewrite (answer_at ev [v] g _ A2 G (inst_one v x X)), (answer_at (evx x) Q (h x) q A3 Hx I). symmetry.
  apply posterior_chain; [exact (proj1 A3)|exact Hv|exact O].
Qed.

Theorem answers_sure ev v x f y : asked b ev [v] -> dget v ev = Some (Hard x) -> mass b ev [] <> 0%Qc -> answer b ev [v] f -> In y (values_of b v) ->
  potential_at f [(v, y)] = if String.eqb y x then 1%Qc else 0%Qc.
Proof.
  intros A O Z F Y. rewrite (answer_at ev [v] f _ A F (inst_one v y Y)). destruct A as (EV & _ & _ & I).
  apply (posterior_sure ev v x y EV (I v (or_introl eq_refl)) O Z).
Qed.

(** Bayes' rule. *)
Theorem answers_bayes ev ev_u ev_v u x v y fu fv fuv fvu : u <> v -> asked b ev [u; v] ->
  observes u x ev ev_u -> NoDup (dkeys ev_u) -> In x (values_of b u) -> observes v y ev ev_v -> NoDup (dkeys ev_v) -> In y (values_of b v) ->
  answer b ev [u] fu -> answer b ev [v] fv -> answer b ev_u [v] fvu -> answer b ev_v [u] fuv ->
  (potential_at fuv [(u, x)] * potential_at fv [(v, y)] = potential_at fvu [(v, y)] * potential_at fu [(u, x)])%Qc.
Proof.
  intros NE A Ou NDu X Ov NDv Y Fu Fv Fvu Fuv. destruct (asked_tail ev u [v] A) as (A1 & A2 & N & Hu).
  assert (Hv : In v (bnames b)) by (destruct A as (_ & _ & _ & I); apply I; right; left; reflexivity).
  assert (A' : asked b ev [v; u]).
  { destruct A as (EV & K & ND & I). split; [exact EV|]. split; [exact K|]. split; [repeat constructor; cbn; intuition congruence|]. intros w [<-|[<-|[]]]; assumption. }
  assert (Au := observes_asked ev ev_u u x [v] A Ou NDu X). assert (Av := observes_asked ev ev_v v y [u] A' Ov NDv Y).
  rewrite (answer_at ev [u] fu _ A2 Fu (inst_one u x X)), (answer_at ev [v] fv _ A1 Fv (inst_one v y Y)),
    (answer_at ev_u [v] fvu _ Au Fvu (inst_one v y Y)), (answer_at ev_v [u] fuv _ Av Fuv (inst_one u x X)).
  rewrite (Qcmult_comm (posterior b ev_v _)), <- (posterior_chain ev ev_v v y [(u, x)] (proj1 Av) Hv Ov).
  rewrite (Qcmult_comm (posterior b ev_u _)), <- (posterior_chain ev ev_u u x [(v, y)] (proj1 Au) Hu Ou).
  unfold posterior. destruct (qeqb (mass b ev []) 0%Qc); [reflexivity|]. f_equal. unfold mass. f_equal. f_equal. apply filter_ext. intros s. rewrite !agrees_cons.
  destruct (String.eqb (look s u) x), (String.eqb (look s v) y); reflexivity.
Qed.
End Laws.
