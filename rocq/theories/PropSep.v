(** Properties C60-C62: which variables and observations can change an answer. *)
From Verif Require Import Base BaseFacts NDArray Factor Exact Spec Order OrderSpec TreeSpec JoinTree FactorSpec FactorProofs VEProof VEProof2 OrderProof
  Node Network NetSpec NetView NetChecks MCSpec MCChecks Checks Instances ExampleNets JTTop JTHistory JTDefault
  SepSpec SepRelevant SepTrail SepBall SepMarkov SepNet SepTop PropNet PropTree.

(** ** C60.  Variables outside a set closed under parents that contains query and
    evidence: deleting them changes no answer, if their tables are normalised. *)
Theorem C60_posterior b S Q ev q order :
  wf_bn b -> topological b order -> ancestral b S -> stochastic_outside b S -> ev_ok b ev -> within_set b ev S ->
  NoDup Q -> incl Q (bnames b) -> incl Q S -> is_inst b Q q ->
  posterior b ev q = posterior (restrict b S) ev q.
Proof.
  intros WB TO AN ST EV WS ND I IS HI. apply (posterior_restrict b WB S AN order TO ST ev q Q EV WS HI ND). exact (Q_inside b S Q I IS).
Qed.

Theorem C60_naive {SO : SetOrder} b S Q ev order :
  wf_bn b -> nonneg_bn b -> topological b order -> ancestral b S -> stochastic_outside b S -> ev_ok b ev -> within_set b ev S ->
  NoDup Q -> incl Q (bnames b) -> incl Q S ->
  exists r r', naive_marginals b Q ev = Ok r /\ naive_marginals (restrict b S) Q ev = Ok r' /\
    forall q, is_inst b Q q -> potential_at r q = potential_at r' q.
Proof.
  intros WB NN TO AN ST EV WS ND I IS. destruct (naive_reports b WB Q ev NN EV I) as (r & E1 & R1).
  destruct (naive_reports (restrict b S) (r_wf b WB S AN) Q ev (r_nonneg b S NN) (r_ev b WB S AN ev EV) (Q_inside b S Q I IS)) as (r' & E2 & R2).
  apply (report_full b WB S Q ev order AN TO ST EV WS ND I IS) in R2. exists r, r'. split; [exact E1|]. split; [exact E2|].
  intros q Hq. rewrite (reports_at _ _ _ _ q R1 Hq), (reports_at _ _ _ _ q R2 Hq). reflexivity.
Qed.

Theorem C60_bucket {SO : SetOrder} b S Q ev o o' order :
  wf_bn b -> wf_graph b -> nonneg_bn b -> topological b order -> ancestral b S -> stochastic_outside b S -> ev_ok b ev ->
  incl (dkeys ev) (bnames b) -> within_set b ev S -> NoDup Q -> incl Q (bnames b) -> incl Q S ->
  (forall l, o = Some l -> l <> [] -> Permutation (bnames b) l) ->
  (forall l, o' = Some l -> l <> [] -> Permutation (bnames (restrict b S)) l) ->
  exists r r', bucket_query b Q ev o = Ok r /\ bucket_query (restrict b S) Q ev o' = Ok r' /\
    forall q, is_inst b Q q -> potential_at r q = potential_at r' q.
Proof.
  intros WB WG NN TO AN ST EV K WS ND I IS P P'.
  destruct (bucket_any_order b WB Q ev o NN EV K ND I (fun _ => WG) P) as (r & E1 & R1).
  destruct (bucket_any_order (restrict b S) (r_wf b WB S AN) Q ev o' (r_nonneg b S NN) (r_ev b WB S AN ev EV)
    (keys_inside b S ev WS K) ND (Q_inside b S Q I IS) (fun _ => r_graph b S WG) P') as (r' & E2 & R2).
  apply (report_full b WB S Q ev order AN TO ST EV WS ND I IS) in R2. exists r, r'. split; [exact E1|]. split; [exact E2|].
  intros q Hq. rewrite (reports_at _ _ _ _ q R1 Hq), (reports_at _ _ _ _ q R2 Hq). reflexivity.
Qed.

(** A join tree of the smaller network answers for the whole one.  Missing for the
    full claim: [suits], as for C15. *)
Theorem C60_tree_partial {SO : SetOrder} b S Q ev o jo t order :
  wf_bn b -> nonneg_bn b -> topological b order -> ancestral b S -> stochastic_outside b S -> ev_ok b ev ->
  incl (dkeys ev) (bnames b) -> within_set b ev S -> NoDup Q -> incl Q (bnames b) -> incl Q S ->
  suits (restrict b S) o -> order_or_default (restrict b S) jo = Ok o -> create_jointree (restrict b S) jo = Ok t -> answers t Q ->
  exists t' f, set_evidence (restrict b S) ev false t = (t', Ok tt) /\ snd (tmarginals t' Q) = Ok f /\ reports b f Q (posterior b ev).
Proof.
  intros WB NN TO AN ST EV K WS ND I IS SU EO EC A.
  destruct (tree_marginals (restrict b S) o jo t ev Q SU (r_nonneg b S NN) EO EC (r_ev b WB S AN ev EV) (keys_inside b S ev WS K) ND A) as (t' & f & E1 & E2 & R).
  exists t', f. split; [exact E1|]. split; [exact E2|]. apply (report_full b WB S Q ev order AN TO ST EV WS ND I IS), R.
Qed.

(** remove_node on a node without children: all answers about the other nodes stay. *)
Theorem C60_remove_leaf {SO : SetOrder} w v i n order Q ev :
  reached w -> tidy w -> nonneg_bn (view w) -> topological (view w) order -> holds w v i n ->
  (forall x, ~ In (v, x) (gedges (wnet w))) ->
  (forall d s, In d (bnodes (view w)) -> dn_name d = v -> qsum (map (fun x => entry d ((v, x) :: s)) (dn_values d)) = 1%Qc) ->
  ev_ok (view w) ev -> ~ In v (dkeys ev) -> NoDup Q -> incl Q (bnames (view w)) -> ~ In v Q ->
  exists w' r r', remove_node w v = (w', Ok tt) /\
    naive_marginals (view w) Q ev = Ok r /\ naive_marginals (view w') Q ev = Ok r' /\
    forall q, is_inst (view w) Q q -> potential_at r q = potential_at r' q.
Proof.
  intros R T NN TO H NE ST EV NV ND I NQ. destruct (view_wf w R T) as (WB & _ & EM).
  destruct (remove_leaf w v i n (C20_structure_partial w R) H NE) as (w' & E & V). set (S := rest_of (view w) v) in *.
  destruct (C60_naive (view w) S Q ev order) as (r & r' & E1 & E2 & EQ); try assumption.
  - intros m p Hm Sm Hp. apply rest_of_In. split.
    + apply in_map_iff in Hp as ((p' & l) & <- & Hp). apply (SpecFacts.parent_dom (view w) WB m p' l Hm Hp).
    + intros ->. apply (NE (dn_name m)). apply (EM v (dn_name m)). exists m. auto.
  - intros m s Hm Nm. assert (Em : dn_name m = v).
    { destruct (string_dec (dn_name m) v) as [X|X]; [exact X|]. exfalso. apply Nm, rest_of_In. split; [apply in_map, Hm|exact X]. }
    rewrite Em. apply ST; assumption.
  - intros u Hu Bu. apply rest_of_In. split; [exact Bu|]. intros ->. contradiction.
  - intros u Hu. apply rest_of_In. split; [apply I, Hu|]. intros ->. contradiction.
  - exists w', r, r'. rewrite V. auto.
Qed.

(** Normalised tables are needed.  The table of a node whose table was never set
    holds zeros: adding such a node makes every answer zero. *)
Definition two_nodes : list op :=
  [NewNode KDiscrete "A" tf; AddNode 0; SetCpd 0 false (mkArr [2] [qq 1 4; qq 3 4])].
Theorem C60_unset_table_refuted : exists (SO : SetOrder) os os' r r', all_within start (os ++ os') /\ os' = [NewNode KDiscrete "B" tf; AddNode 1; AddEdge "A" "B"] /\
  naive_marginals (view (run start os)) ["A"] [] = Ok r /\ naive_marginals (view (run start (os ++ os'))) ["A"] [] = Ok r' /\
  potential_at r [("A", "t")] = qq 1 4 /\ potential_at r' [("A", "t")] = 0%Qc /\ potential_at r' [("A", "f")] = 0%Qc.
Proof.
  exists listing_order, two_nodes, [NewNode KDiscrete "B" tf; AddNode 1; AddEdge "A" "B"]. do 2 eexists.
  split; [apply all_withinb_ok; vm_compute; reflexivity|]. split; [reflexivity|]. split; [vm_compute; reflexivity|]. split; [vm_compute; reflexivity|].
  split; [qc|]. split; qc.
Qed.

Definition poly_ev : evidence := [("C", Soft [qq 1 2; qq 1 1; 0%Qc])].
Lemma poly_wf : wf_bn poly. Proof. apply wf_bnb_ok. vm_compute. reflexivity. Qed.
Lemma poly_nonneg : nonneg_bn poly. Proof. apply nonnegb_ok. vm_compute. reflexivity. Qed.
Lemma poly_stochastic : stochastic_bn poly. Proof. apply stochasticb_ok; [exact poly_wf|]. vm_compute. reflexivity. Qed.
Lemma poly_order : topological poly ["A"; "B"; "C"; "E"; "D"; "F"].
Proof. apply topological_ok; [exact poly_wf| |]; vm_compute; reflexivity. Qed.

Example C60_example : wf_bn poly /\ wf_graph poly /\ nonneg_bn poly /\ topological poly ["A"; "B"; "C"; "E"; "D"; "F"] /\
  ancestral poly ["A"; "B"; "C"] /\ stochastic_outside poly ["A"; "B"; "C"] /\ ev_ok poly poly_ev /\ within_set poly poly_ev ["A"; "B"; "C"] /\
  incl (dkeys poly_ev) (bnames poly) /\ is_inst poly ["A"] [("A", "t")] /\ bnames (restrict poly ["A"; "B"; "C"]) = ["A"; "B"; "C"] /\
  (0 < posterior poly poly_ev [("A", "t")])%Qc /\ (posterior poly poly_ev [("A", "t")] < 1)%Qc.
Proof.
  split; [exact poly_wf|]. split; [apply wf_graphb_ok; vm_compute; reflexivity|]. split; [exact poly_nonneg|]. split; [exact poly_order|].
  split; [apply ancestralb_ok; reflexivity|]. split; [intros n s Hn _; apply poly_stochastic, Hn|].
  split; [apply ev_okb_ok; vm_compute; reflexivity|]. split; [apply within_setb_ok; reflexivity|]. split; [apply inclb_ok; reflexivity|].
  split; [split; [apply nodup_s_spec; reflexivity|]; split; [cbn; tauto|]; intros v x [E|[]]; injection E as <- <-; cbn; tauto|].
  split; [reflexivity|]. split; vm_compute; reflexivity.
Qed.

Example C60_tree_example : ancestral net ["A"; "B"; "C"] /\ suits (restrict net ["A"; "B"; "C"]) ["A"; "B"; "C"] /\
  order_or_default (restrict net ["A"; "B"; "C"]) None = Ok ["A"; "B"; "C"] /\
  (exists t, @create_jointree listing_order (restrict net ["A"; "B"; "C"]) None = Ok t /\ answers t ["C"; "A"]).
Proof.
  assert (S : suits (restrict net ["A"; "B"; "C"]) ["A"; "B"; "C"]) by (apply (suitsb_ok _ _ ["A"; "B"; "C"]); vm_compute; reflexivity).
  split; [apply ancestralb_ok; reflexivity|]. split; [exact S|]. split; [vm_compute; reflexivity|].
  eexists. split; [vm_compute; reflexivity|]. eexists. split; [left; reflexivity|]. apply inclb_ok. vm_compute. reflexivity.
Qed.

Example C60_remove_example : reached garden /\ tidy garden /\ nonneg_bn (view garden) /\ topological (view garden) ["sprinkler"; "weather"; "wet"] /\
  (exists n, holds garden "wet" 1 n) /\ (forall x, ~ In ("wet", x) (gedges (wnet garden))) /\ stochastic_bn (view garden) /\
  ev_ok (view garden) [("sprinkler", Hard "on")].
Proof.
  assert (WB := proj1 (view_wf garden garden_reached garden_tidy)).
  split; [exact garden_reached|]. split; [exact garden_tidy|]. split; [apply nonnegb_ok; vm_compute; reflexivity|].
  split; [apply topological_ok; [exact WB|vm_compute; reflexivity|vm_compute; reflexivity]|].
  split; [eexists; split; vm_compute; reflexivity|]. split; [intros x; rewrite garden_edges; intros [E|[E|[]]]; discriminate E|].
  split; [apply stochasticb_ok; [exact WB|vm_compute; reflexivity]|]. apply ev_okb_ok. vm_compute. reflexivity.
Qed.

(** ** C61.  Two bodies of evidence that differ only where the query is separated
    from give the same answer.  First in the form of trails through families, for all
    networks, then as the rules of d-separation ([ball]), for acyclic networks with
    normalised tables. *)
Theorem C61_trails b Q ev ev' q :
  wf_bn b -> ev_ok b ev -> ev_ok b ev' -> NoDup Q -> incl Q (bnames b) -> is_inst b Q q ->
  same_near b ev ev' Q -> mass b ev [] <> 0%Qc -> mass b ev' [] <> 0%Qc ->
  posterior b ev q = posterior b ev' q.
Proof. intros WB E1 E2 ND I HI. exact (separated b WB ev ev' q Q E1 E2 HI ND I). Qed.

Theorem C61_separation b Q ev ev' q order :
  wf_bn b -> topological b order -> stochastic_bn b -> ev_ok b ev -> ev_ok b ev' -> NoDup Q -> incl Q (bnames b) -> is_inst b Q q ->
  ball_same b ev ev' Q -> mass b ev [] <> 0%Qc -> mass b ev' [] <> 0%Qc ->
  posterior b ev q = posterior b ev' q.
Proof. intros WB TO ST E1 E2 ND I HI. exact (ball_separates b WB ev ev' Q order q TO ST E1 E2 ND I HI). Qed.

Theorem C61_naive {SO : SetOrder} b Q ev ev' order :
  wf_bn b -> nonneg_bn b -> topological b order -> stochastic_bn b -> ev_ok b ev -> ev_ok b ev' -> NoDup Q -> incl Q (bnames b) ->
  ball_same b ev ev' Q -> mass b ev [] <> 0%Qc -> mass b ev' [] <> 0%Qc ->
  exists r r', naive_marginals b Q ev = Ok r /\ naive_marginals b Q ev' = Ok r' /\
    forall q, is_inst b Q q -> potential_at r q = potential_at r' q.
Proof.
  intros WB NN TO ST E1 E2 ND I SB M1 M2. destruct (naive_reports b WB Q ev NN E1 I) as (r & X1 & R1).
  destruct (naive_reports b WB Q ev' NN E2 I) as (r' & X2 & R2). exists r, r'. split; [exact X1|]. split; [exact X2|]. intros q Hq.
  rewrite (reports_at _ _ _ _ q R1 Hq), (reports_at _ _ _ _ q R2 Hq). apply (C61_separation b Q ev ev' q order); assumption.
Qed.

Theorem C61_bucket {SO : SetOrder} b Q ev ev' o order :
  wf_bn b -> wf_graph b -> nonneg_bn b -> topological b order -> stochastic_bn b -> ev_ok b ev -> ev_ok b ev' ->
  incl (dkeys ev) (bnames b) -> incl (dkeys ev') (bnames b) -> NoDup Q -> incl Q (bnames b) ->
  (forall l, o = Some l -> l <> [] -> Permutation (bnames b) l) ->
  ball_same b ev ev' Q -> mass b ev [] <> 0%Qc -> mass b ev' [] <> 0%Qc ->
  exists r r', bucket_query b Q ev o = Ok r /\ bucket_query b Q ev' o = Ok r' /\
    forall q, is_inst b Q q -> potential_at r q = potential_at r' q.
Proof.
  intros WB WG NN TO ST E1 E2 K1 K2 ND I P SB M1 M2. destruct (bucket_any_order b WB Q ev o NN E1 K1 ND I (fun _ => WG) P) as (r & X1 & R1).
  destruct (bucket_any_order b WB Q ev' o NN E2 K2 ND I (fun _ => WG) P) as (r' & X2 & R2). exists r, r'. split; [exact X1|]. split; [exact X2|]. intros q Hq.
  rewrite (reports_at _ _ _ _ q R1 Hq), (reports_at _ _ _ _ q R2 Hq). apply (C61_separation b Q ev ev' q order); assumption.
Qed.

(** Missing for the full claim: [suits], as for C15. *)
Theorem C61_tree_partial {SO : SetOrder} b Q ev ev' o jo t order :
  suits b o -> nonneg_bn b -> order_or_default b jo = Ok o -> create_jointree b jo = Ok t -> topological b order -> stochastic_bn b ->
  ev_ok b ev -> ev_ok b ev' -> incl (dkeys ev) (bnames b) -> incl (dkeys ev') (bnames b) -> NoDup Q -> incl Q (bnames b) -> answers t Q ->
  ball_same b ev ev' Q -> mass b ev [] <> 0%Qc -> mass b ev' [] <> 0%Qc ->
  exists t1 t2 f1 f2, set_evidence b ev false t = (t1, Ok tt) /\ snd (tmarginals t1 Q) = Ok f1 /\
    set_evidence b ev' false t = (t2, Ok tt) /\ snd (tmarginals t2 Q) = Ok f2 /\
    forall q, is_inst b Q q -> potential_at f1 q = potential_at f2 q.
Proof.
  intros SU NN EO EC TO ST E1 E2 K1 K2 ND I A SB M1 M2.
  destruct (tree_marginals b o jo t ev Q SU NN EO EC E1 K1 ND A) as (t1 & f1 & X1 & X2 & R1).
  destruct (tree_marginals b o jo t ev' Q SU NN EO EC E2 K2 ND A) as (t2 & f2 & X3 & X4 & R2).
  exists t1, t2, f1, f2. repeat (split; [assumption|]). intros q Hq.
  rewrite (reports_at _ _ _ _ q R1 Hq), (reports_at _ _ _ _ q R2 Hq). apply (C61_separation b Q ev ev' q order); try assumption. apply SU.
Qed.

(** In [poly] (A, B -> C; C, E -> D; D -> F), B says nothing about A, but it does once F
    is observed; given C and F, E is reached through D and A is not. *)
Definition obs : evidence := [("C", Hard "y"); ("F", Hard "t")].
Definition obs' : evidence := [("E", Soft [qq 1 3; 0%Qc]); ("F", Hard "t"); ("C", Hard "y")].
Example C61_example :
  ball_same poly [] [("B", Hard "t")] ["A"] /\ ball_same poly obs obs' ["A"; "B"] /\
  mass poly [] [] <> 0%Qc /\ mass poly [("B", Hard "t")] [] <> 0%Qc /\ mass poly obs [] <> 0%Qc /\ mass poly obs' [] <> 0%Qc /\
  ev_ok poly obs /\ ev_ok poly obs' /\
  posterior poly [("F", Hard "t")] [("A", "t")] <> posterior poly [("F", Hard "t"); ("B", Hard "t")] [("A", "t")].
Proof.
  split.
  { apply (ball_same_ok _ _ _ _ ["A"; "B"] [(true, "A"); (false, "C"); (false, "D"); (false, "F")]); [reflexivity|].
    intros d v H. cbn in H. repeat (destruct H as [H|H]; [injection H as <- <-; reflexivity|]). destruct H. }
  split.
  { apply (ball_same_ok _ _ _ _ ["A"; "B"; "C"; "E"; "D"; "F"] [(true, "A"); (true, "B"); (false, "C")]); [reflexivity|].
    intros d v H. cbn in H. repeat (destruct H as [H|H]; [injection H as <- <-; reflexivity|]). destruct H. }
  assert (Z : forall x : Qc, qeqb x 0%Qc = false -> x <> 0%Qc) by (intros x H; apply qeqb_false, H).
  split; [apply Z; vm_compute; reflexivity|]. split; [apply Z; vm_compute; reflexivity|]. split; [apply Z; vm_compute; reflexivity|].
  split; [apply Z; vm_compute; reflexivity|]. split; [apply ev_okb_ok; vm_compute; reflexivity|]. split; [apply ev_okb_ok; vm_compute; reflexivity|].
  intros E. apply (f_equal this) in E. vm_compute in E. discriminate E.
Qed.

Example C61_trail_example : same_near chains [("Z", Hard "t"); ("B", Hard "t")] [("B", Hard "t"); ("X", Soft [qq 1 2; qq 1 3])] ["C"] /\
  mass chains [("Z", Hard "t"); ("B", Hard "t")] [] <> 0%Qc /\ mass chains [("B", Hard "t"); ("X", Soft [qq 1 2; qq 1 3])] [] <> 0%Qc.
Proof.
  assert (Z : forall x : Qc, qeqb x 0%Qc = false -> x <> 0%Qc) by (intros x H; apply qeqb_false, H).
  split; [|split; apply Z; vm_compute; reflexivity]. intros u v [<-|[]] T.
  assert (E : v = "C"); [|rewrite E; reflexivity].
  assert (G : forall u v, trail chains [("Z", Hard "t"); ("B", Hard "t")] [("B", Hard "t"); ("X", Soft [qq 1 2; qq 1 3])] u v -> u = "C" -> v = "C").
  { clear. intros u v T. induction T as [|u v w T IH R N]; intros Ec; [exact Ec|]. specialize (IH Ec). subst v. destruct R as (n & Hn & F1 & F2).
    assert (W : In w ["B"; "C"]).
    { cbn in Hn. repeat (destruct Hn as [<-|Hn]; [cbn in F1, F2; intuition (subst; try discriminate; cbn; tauto)|]). destruct Hn. }
    destruct W as [<-|[<-|[]]]; [|reflexivity]. exfalso. apply N. exists "t". auto. }
  exact (G _ _ T eq_refl).
Qed.

(** ** C62.  A variable whose parents are observed: its table's row, whatever is known
    about variables that are not below it. *)
Theorem C62_row b n ev s x order :
  wf_bn b -> topological b order -> stochastic_bn b -> In n (bnodes b) -> ev_ok b ev ->
  (forall d, above b (dn_name n) d -> ~ In d (dkeys ev)) ->
  (forall p, In p (map fst (dn_parents n)) -> dget p ev = Some (Hard (look s p))) ->
  In x (dn_values n) -> mass b ev [] <> 0%Qc ->
  posterior b ev [(dn_name n, x)] = entry n ((dn_name n, x) :: s).
Proof. intros WB TO ST Hn EV UN PA. exact (markov b WB order TO ST n Hn ev EV UN s PA x). Qed.

Theorem C62_naive {SO : SetOrder} b n ev s order :
  wf_bn b -> nonneg_bn b -> topological b order -> stochastic_bn b -> In n (bnodes b) -> ev_ok b ev ->
  (forall d, above b (dn_name n) d -> ~ In d (dkeys ev)) ->
  (forall p, In p (map fst (dn_parents n)) -> dget p ev = Some (Hard (look s p))) -> mass b ev [] <> 0%Qc ->
  exists r, naive_marginals b [dn_name n] ev = Ok r /\
    forall x, In x (dn_values n) -> potential_at r [(dn_name n, x)] = entry n ((dn_name n, x) :: s).
Proof.
  intros WB NN TO ST Hn EV UN PA M. assert (I : incl [dn_name n] (bnames b)) by (intros v [<-|[]]; apply in_map, Hn).
  destruct (naive_reports b WB [dn_name n] ev NN EV I) as (r & E & R). exists r. split; [exact E|]. intros x Hx.
  rewrite (reports_at _ _ _ _ _ R).
  - apply (C62_row b n ev s x order); assumption.
  - split; [repeat constructor; intros []|]. split; [cbn; tauto|]. intros v y [X|[]]. injection X as <- <-. rewrite (SpecFacts.values_of_node b WB n Hn). exact Hx.
Qed.

Theorem C62_bucket {SO : SetOrder} b n ev s o order :
  wf_bn b -> wf_graph b -> nonneg_bn b -> topological b order -> stochastic_bn b -> In n (bnodes b) -> ev_ok b ev -> incl (dkeys ev) (bnames b) ->
  (forall l, o = Some l -> l <> [] -> Permutation (bnames b) l) ->
  (forall d, above b (dn_name n) d -> ~ In d (dkeys ev)) ->
  (forall p, In p (map fst (dn_parents n)) -> dget p ev = Some (Hard (look s p))) -> mass b ev [] <> 0%Qc ->
  exists r, bucket_query b [dn_name n] ev o = Ok r /\
    forall x, In x (dn_values n) -> potential_at r [(dn_name n, x)] = entry n ((dn_name n, x) :: s).
Proof.
  intros WB WG NN TO ST Hn EV K P UN PA M. assert (I : incl [dn_name n] (bnames b)) by (intros v [<-|[]]; apply in_map, Hn).
  assert (ND : NoDup [dn_name n]) by (repeat constructor; intros []).
  destruct (bucket_any_order b WB [dn_name n] ev o NN EV K ND I (fun _ => WG) P) as (r & E & R). exists r. split; [exact E|]. intros x Hx.
  rewrite (reports_at _ _ _ _ _ R).
  - apply (C62_row b n ev s x order); assumption.
  - split; [exact ND|]. split; [cbn; tauto|]. intros v y [X|[]]. injection X as <- <-. rewrite (SpecFacts.values_of_node b WB n Hn). exact Hx.
Qed.

(** C of [net] given A and B, and of [poly] given A, B and soft evidence on E. *)
Example C62_example :
  (forall d, above net "C" d -> ~ In d (dkeys [("A", Hard "f"); ("B", Hard "y")])) /\
  (forall p, In p (map fst (dn_parents nC)) -> dget p [("A", Hard "f"); ("B", Hard "y")] = Some (Hard (look [("A", "f"); ("B", "y")] p))) /\
  mass net [("A", Hard "f"); ("B", Hard "y")] [] <> 0%Qc /\
  entry nC (("C", "t") :: [("A", "f"); ("B", "y")]) = qq 4 10 /\
  posterior net [("A", Hard "f"); ("B", Hard "y")] [("C", "t")] = qq 4 10 /\
  posterior poly [("A", Hard "f"); ("B", Hard "t"); ("E", Soft [qq 1 3; 0%Qc])] [("C", "x")] = qq 4 10.
Proof.
  split; [intros d A; apply (child_closed_ok net ["C"; "D"] eq_refl) in A; [|left; reflexivity]; destruct A as [<-|[<-|[]]]; cbn; intuition discriminate|].
  split; [intros p [<-|[<-|[]]]; reflexivity|]. split; [apply qeqb_false; vm_compute; reflexivity|]. split; [qc|]. split; qc.
Qed.

Print Assumptions C60_posterior.
Print Assumptions C60_naive.
Print Assumptions C60_bucket.
Print Assumptions C60_tree_partial.
Print Assumptions C60_remove_leaf.
Print Assumptions C60_unset_table_refuted.
Print Assumptions C61_trails.
Print Assumptions C61_separation.
Print Assumptions C61_naive.
Print Assumptions C61_bucket.
Print Assumptions C61_tree_partial.
Print Assumptions C62_row.
Print Assumptions C62_naive.
Print Assumptions C62_bucket.
