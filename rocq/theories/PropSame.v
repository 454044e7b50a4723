(** Property C88: networks that say the same, built in different orders. *)
From Coq Require Import Relations.
From Verif Require Import Base BaseFacts NDArray Factor FactorFacts Exact Spec SpecFacts Order OrderSpec FactorSpec FactorProofs VEProof2 Checks
  Instances ExampleNets PropVE JoinTree TreeSpec Hugin JTProof JTTop JTJunction JTHistory JTDefault JTPolytree JTAgain3 PropTree
  Node Network NetSpec NetInv NetTop NetView NetChecks DynChecks Sampling MCSpec MCChecks LawSpec LawKernel PropLaw SameSpec SameProof.

(** The reference semantics, for all (partial) instantiations. *)
Theorem C88_posterior b b' ev ev' : wf_bn b -> same_model b b' -> same_evidence b b' ev ev' -> forall q,
  mass b' ev' q = mass b ev q /\ posterior b' ev' q = posterior b ev q.
Proof.
  intros WB S E q. split; [apply same_model_mass|apply same_model_posterior]; try assumption; apply WB.
Qed.

(** naive_marginals and bucket_marginals, with the variables of the query in any order, all
    elimination orders, and all orders in which Python iterates over sets ([SO], [SO']): the
    two results hold the same numbers. *)
Theorem C88_naive (SO SO' : SetOrder) b b' ev ev' Q Q' :
  wf_bn b -> nonneg_bn b -> ev_ok b ev -> incl Q (bnames b) ->
  wf_bn b' -> nonneg_bn b' -> ev_ok b' ev' -> same_model b b' -> same_evidence b b' ev ev' -> Permutation Q Q' ->
  exists r r', naive_marginals (SO := SO) b Q ev = Ok r /\ naive_marginals (SO := SO') b' Q' ev' = Ok r' /\
    forall q, is_inst b Q q -> potential_at r' q = potential_at r q.
Proof.
  intros WB NN EV I WB' NN' EV' S E P.
  assert (I' : incl Q' (bnames b')).
  { intros v Hv. apply (Permutation_in _ (sm_names _ _ S)), I, (Permutation_in _ (Permutation_sym P)), Hv. }
  destruct (C11_naive_is_posterior (SO := SO) b Q ev WB NN EV I) as (r & A & R).
  destruct (C11_naive_is_posterior (SO := SO') b' Q' ev' WB' NN' EV' I') as (r' & A' & R').
  exists r, r'. split; [exact A|]. split; [exact A'|]. exact (same_reports b b' ev ev' Q Q' r r' WB WB' S E I P R R').
Qed.

Theorem C88_bucket (SO SO' : SetOrder) b b' ev ev' Q Q' o o' :
  wf_bn b -> nonneg_bn b -> ev_ok b ev -> incl (dkeys ev) (bnames b) -> NoDup Q -> incl Q (bnames b) ->
  (o = None \/ o = Some [] -> wf_graph b) -> (forall l, o = Some l -> l <> [] -> Permutation (bnames b) l) ->
  wf_bn b' -> nonneg_bn b' -> ev_ok b' ev' -> incl (dkeys ev') (bnames b') ->
  (o' = None \/ o' = Some [] -> wf_graph b') -> (forall l, o' = Some l -> l <> [] -> Permutation (bnames b') l) ->
  same_model b b' -> same_evidence b b' ev ev' -> Permutation Q Q' ->
  exists r r', bucket_query (SO := SO) b Q ev o = Ok r /\ bucket_query (SO := SO') b' Q' ev' o' = Ok r' /\
    forall q, is_inst b Q q -> potential_at r' q = potential_at r q.
Proof.
  intros WB NN EV K ND I G O WB' NN' EV' K' G' O' S E P.
  assert (I' : incl Q' (bnames b')).
  { intros v Hv. apply (Permutation_in _ (sm_names _ _ S)), I, (Permutation_in _ (Permutation_sym P)), Hv. }
  destruct (C12_bucket_is_posterior (SO := SO) b Q ev o WB NN EV K ND I G O) as (r & A & R).
  destruct (C12_bucket_is_posterior (SO := SO') b' Q' ev' o' WB' NN' EV' K' (Permutation_NoDup P ND) I' G' O') as (r' & A' & R').
  exists r, r'. split; [exact A|]. split; [exact A'|]. exact (same_reports b b' ev ev' Q Q' r r' WB WB' S E I P R R').
Qed.

(** Join trees in one piece; without that hypothesis it is false, see below. *)
Theorem C88_tree_partial (SO SO' : SetOrder) b b' ev ev' Q Q' o o' order order' t t' :
  suits b o -> nonneg_bn b -> order_or_default b order = Ok o -> create_jointree (SO := SO) b order = Ok t ->
  ev_ok b ev -> incl (dkeys ev) (bnames b) -> NoDup Q -> incl Q (bnames b) -> answers t Q ->
  suits b' o' -> nonneg_bn b' -> order_or_default b' order' = Ok o' -> create_jointree (SO := SO') b' order' = Ok t' ->
  ev_ok b' ev' -> incl (dkeys ev') (bnames b') -> answers t' Q' ->
  same_model b b' -> same_evidence b b' ev ev' -> Permutation Q Q' ->
  exists t1 t1' r r', set_evidence (SO := SO) b ev false t = (t1, Ok tt) /\ set_evidence (SO := SO') b' ev' false t' = (t1', Ok tt) /\
    snd (tmarginals (SO := SO) t1 Q) = Ok r /\ snd (tmarginals (SO := SO') t1' Q') = Ok r' /\
    forall q, is_inst b Q q -> potential_at r' q = potential_at r q.
Proof.
  intros SU NN EO EC EV K ND I A SU' NN' EO' EC' EV' K' A' S E P.
  destruct (C15_tree_is_posterior_partial (SO := SO) b o order t ev Q SU NN EO EC EV K ND A) as (t1 & r & X & Y & R).
  destruct (C15_tree_is_posterior_partial (SO := SO') b' o' order' t' ev' Q' SU' NN' EO' EC' EV' K' (Permutation_NoDup P ND) A') as (t1' & r' & X' & Y' & R').
  exists t1, t1', r, r'. split; [exact X|]. split; [exact X'|]. split; [exact Y|]. split; [exact Y'|].
  exact (same_reports b b' ev ev' Q Q' r r' (su_bn _ _ SU) (su_bn _ _ SU') S E I P R R').
Qed.

(** Networks made through the API: it is enough that get_probability answers alike. *)
Theorem C88_api w w' : reached w -> reached w' -> (same_answers w w' <-> same_model (view w) (view w')).
Proof.
  intros R R'. split; [exact (answers_model w w' (reached_inv w R) (reached_inv w' R'))|exact (model_answers w w' (reached_inv w R) (reached_inv w' R'))].
Qed.

(** Forward sampling draws every state with the same probability, whatever topological orders
    are used. *)
Theorem C88_sampling b b' ev order order' :
  sampled_net b -> stochastic_bn b -> topological b order -> NoDup (dkeys ev) -> incl (dkeys ev) (bnames b) ->
  sampled_net b' -> stochastic_bn b' -> topological b' order' -> same_model b b' ->
  exists D, 0 < D /\ forall N m y y', 0 < N -> Nat.divide D N -> In y (worlds b ev) -> In y' (worlds b' ev) -> (forall v, dget v y = dget v y') ->
    length (filter (fun v => negb (dmem v ev)) order) <= m -> length (filter (fun v => negb (dmem v ev)) order') <= m ->
    chance N m (fun g => drawn y (get_sample g 0 b order ev)) = chance N m (fun g => drawn y' (get_sample g 0 b' order' ev)).
Proof.
  intros SN ST TO ND IN SN' ST' TO' S.
  assert (IN' : incl (dkeys ev) (bnames b')) by (intros v Hv; apply (Permutation_in _ (sm_names _ _ S)), IN, Hv).
  destruct (C50_forward b ev order SN ST TO ND IN) as (D & P & H). destruct (C50_forward b' ev order' SN' ST' TO' ND IN') as (D' & P' & H').
  exists (D * D'). split; [lia|]. intros N m y y' N0 DN Y Y' E M M'.
  rewrite (H N m y N0 (Nat.divide_trans _ _ _ (Nat.divide_factor_l D D') DN) Y M).
  rewrite (H' N m y' N0 (Nat.divide_trans _ _ _ (Nat.divide_factor_r D' D) DN) Y' M').
  symmetry. apply same_product; [apply SN|exact S| |exact E]. apply filter_In in Y. apply Y.
Qed.

(** ** Example: the same network twice, with nodes, values and parents in different orders. *)
Definition soil1 : bn := mkBN
  [mkN "rain" ["t"; "f"] [] [] (mkArr [2] [qq 1 5; qq 4 5]);
   mkN "sprinkler" ["on"; "off"] [("rain", ["t"; "f"])] ["rain"] (mkArr [2; 2] [qq 1 10; qq 3 5; qq 9 10; qq 2 5]);
   mkN "wet" ["y"; "n"] [("rain", ["t"; "f"]); ("sprinkler", ["on"; "off"])] ["rain"; "sprinkler"]
     (mkArr [2; 2; 2] [qq 99 100; qq 4 5; qq 9 10; qq 0 1; qq 1 100; qq 1 5; qq 1 10; qq 1 1])]
  ["rain"; "sprinkler"; "wet"] [("rain", "sprinkler"); ("rain", "wet"); ("sprinkler", "wet")].
Definition soil2 : bn := mkBN
  [mkN "wet" ["n"; "y"] [("sprinkler", ["off"; "on"]); ("rain", ["t"; "f"])] ["sprinkler"; "rain"]
     (mkArr [2; 2; 2] [qq 1 5; qq 1 1; qq 1 100; qq 1 10; qq 4 5; qq 0 1; qq 99 100; qq 9 10]);
   mkN "sprinkler" ["off"; "on"] [("rain", ["t"; "f"])] ["rain"] (mkArr [2; 2] [qq 9 10; qq 2 5; qq 1 10; qq 3 5]);
   mkN "rain" ["t"; "f"] [] [] (mkArr [2] [qq 1 5; qq 4 5])]
  ["wet"; "sprinkler"; "rain"] [("sprinkler", "wet"); ("rain", "wet"); ("rain", "sprinkler")].

Ltac each_value W k := let x := fresh "x" in let D := fresh "D" in let V := fresh "V" in
  destruct (W (nth k (bnodes soil1) (mkN "" [] [] [] (mkArr [] [])))) as (x & D & V); [cbn; tauto|]; cbn [nth bnodes soil1 dn_name dn_values] in D, V.

Lemma soil_values n n' : In n (bnodes soil1) -> In n' (bnodes soil2) -> dn_name n = dn_name n' -> Permutation (dn_values n) (dn_values n').
Proof.
  intros Hn Hn' E. cbn [soil1 bnodes In] in Hn. cbn [soil2 bnodes In] in Hn'.
  destruct Hn as [<-|[<-|[<-|[]]]]; destruct Hn' as [<-|[<-|[<-|[]]]]; try discriminate E; apply permb_ok; reflexivity.
Qed.

Lemma soil_same : same_model soil1 soil2.
Proof.
  split; [apply permb_ok; reflexivity|exact soil_values|]. intros n n' s Hn Hn' E W.
  each_value W 0. each_value W 1. each_value W 2. cbn [soil1 bnodes In] in Hn. cbn [soil2 bnodes In] in Hn'.
  destruct Hn as [<-|[<-|[<-|[]]]]; destruct Hn' as [<-|[<-|[<-|[]]]]; try discriminate E; unfold entry, look; cbn [dn_name dn_values dn_parents dn_cpd map fst snd];
    rewrite ?D, ?D0, ?D1; destruct V as [<-|[<-|[]]]; destruct V0 as [<-|[<-|[]]]; destruct V1 as [<-|[<-|[]]]; qc.
Qed.

(** Soft evidence lists one number per value, so it is reordered with the values. *)
Definition soil_ev1 : evidence := [("sprinkler", Soft [qq 3 4; qq 1 4]); ("wet", Hard "y")].
Definition soil_ev2 : evidence := [("wet", Hard "y"); ("sprinkler", Soft [qq 1 4; qq 3 4])].
Lemma soil_evidence : same_evidence soil1 soil2 soil_ev1 soil_ev2.
Proof.
  intros n n' s Hn Hn' E W. each_value W 0. each_value W 1. each_value W 2. cbn [soil1 bnodes In] in Hn. cbn [soil2 bnodes In] in Hn'.
  destruct Hn as [<-|[<-|[<-|[]]]]; destruct Hn' as [<-|[<-|[<-|[]]]]; try discriminate E; unfold evidence_weight, look; cbn [dn_name dn_values soil_ev1 soil_ev2 dget String.eqb Ascii.eqb Bool.eqb];
    rewrite ?D, ?D0, ?D1; destruct V as [<-|[<-|[]]]; destruct V0 as [<-|[<-|[]]]; destruct V1 as [<-|[<-|[]]]; qc.
Qed.

Example C88_example : wf_bn soil1 /\ wf_graph soil1 /\ nonneg_bn soil1 /\ wf_bn soil2 /\ wf_graph soil2 /\ nonneg_bn soil2 /\
  ev_ok soil1 soil_ev1 /\ ev_ok soil2 soil_ev2 /\ same_model soil1 soil2 /\ same_evidence soil1 soil2 soil_ev1 soil_ev2 /\
  map dn_cpd (bnodes soil1) <> rev (map dn_cpd (bnodes soil2)) /\
  exists r r', bucket_query (SO := listing_order) soil1 ["rain"; "sprinkler"] soil_ev1 None = Ok r /\
    bucket_query (SO := reversed_order) soil2 ["sprinkler"; "rain"] soil_ev2 (Some ["rain"; "wet"; "sprinkler"]) = Ok r' /\
    potential_at r [("rain", "t"); ("sprinkler", "on")] = potential_at r' [("rain", "t"); ("sprinkler", "on")] /\
    pot r <> pot r'.
Proof.
  split; [apply wf_bnb_ok; vm_compute; reflexivity|]. split; [apply wf_graphb_ok; vm_compute; reflexivity|]. split; [apply nonnegb_ok; vm_compute; reflexivity|].
  split; [apply wf_bnb_ok; vm_compute; reflexivity|]. split; [apply wf_graphb_ok; vm_compute; reflexivity|]. split; [apply nonnegb_ok; vm_compute; reflexivity|].
  split; [apply ev_okb_ok; vm_compute; reflexivity|]. split; [apply ev_okb_ok; vm_compute; reflexivity|]. split; [exact soil_same|]. split; [exact soil_evidence|].
  split; [vm_compute; discriminate|]. do 2 eexists. split; [vm_compute; reflexivity|]. split; [vm_compute; reflexivity|]. split; [qc|]. vm_compute. discriminate.
Qed.

Example C88_tree_example : suits soil1 ["rain"; "sprinkler"; "wet"] /\ suits soil2 ["wet"; "sprinkler"; "rain"] /\
  exists t t', create_jointree (SO := listing_order) soil1 (Some ["rain"; "sprinkler"; "wet"]) = Ok t /\
    create_jointree (SO := reversed_order) soil2 (Some ["wet"; "sprinkler"; "rain"]) = Ok t' /\ answers t ["rain"] /\ answers t' ["rain"].
Proof.
  split; [apply (suitsb_ok soil1 _ ["rain"; "sprinkler"; "wet"]); vm_compute; reflexivity|].
  split; [apply (suitsb_ok soil2 _ ["rain"; "sprinkler"; "wet"]); vm_compute; reflexivity|].
  do 2 eexists. split; [vm_compute; reflexivity|]. split; [vm_compute; reflexivity|].
  split; eexists; (split; [left; reflexivity|apply inclb_ok; vm_compute; reflexivity]).
Qed.

Example C88_sampling_example : sampled_net soil1 /\ sampled_net soil2 /\ stochastic_bn soil1 /\ stochastic_bn soil2 /\
  topological soil1 ["rain"; "sprinkler"; "wet"] /\ topological soil2 ["rain"; "sprinkler"; "wet"] /\
  In [("rain", "f"); ("sprinkler", "on"); ("wet", "y")] (worlds soil1 [("wet", "y")]) /\
  In [("wet", "y"); ("sprinkler", "on"); ("rain", "f")] (worlds soil2 [("wet", "y")]).
Proof.
  split; [apply sampled_ok; vm_compute; reflexivity|]. split; [apply sampled_ok; vm_compute; reflexivity|].
  split; [apply stochasticb_ok; [apply wf_bnb_ok|]; vm_compute; reflexivity|]. split; [apply stochasticb_ok; [apply wf_bnb_ok|]; vm_compute; reflexivity|].
  split; [apply topological_ok; [apply wf_bnb_ok| |]; vm_compute; reflexivity|]. split; [apply topological_ok; [apply wf_bnb_ok| |]; vm_compute; reflexivity|].
  split; vm_compute; tauto.
Qed.

(** The same through the API. *)
Example C88_api_example : reached (world_of soil1) /\ reached (world_of soil2) /\ same_answers (world_of soil1) (world_of soil2).
Proof.
  split; [apply world_of_reached; vm_compute; reflexivity|]. split; [apply world_of_reached; vm_compute; reflexivity|].
  apply C88_api; [apply world_of_reached; vm_compute; reflexivity|apply world_of_reached; vm_compute; reflexivity|].
  assert (E1 : view (world_of soil1) = soil1) by (vm_compute; reflexivity). assert (E2 : view (world_of soil2) = soil2) by (vm_compute; reflexivity).
  rewrite E1, E2. exact soil_same.
Qed.

(** ** What depends on the order of construction *)

(** The same vector of soft evidence is not the same evidence. *)
Theorem C88_positions_refuted : exists b b' ev, wf_bn b /\ wf_bn b' /\ same_model b b' /\ ev_ok b ev /\ ev_ok b' ev /\
  posterior b ev [("rain", "t")] <> posterior b' ev [("rain", "t")].
Proof.
  exists soil1, soil2, soil_ev1. split; [apply wf_bnb_ok; vm_compute; reflexivity|]. split; [apply wf_bnb_ok; vm_compute; reflexivity|]. split; [exact soil_same|].
  split; [apply ev_okb_ok; vm_compute; reflexivity|]. split; [apply ev_okb_ok; vm_compute; reflexivity|].
  intros E. apply (f_equal this) in E. vm_compute in E. discriminate.
Qed.

(** Whether the join tree of the default elimination order falls apart (C16) depends on the
    order in which the nodes were added: of two networks with the same nodes and edges, one
    gets a right answer and the other a wrong one. *)
Definition loop5' : bn := mkBN (bnodes loop5) ["B"; "E"; "D"; "A"; "C"] (bedges loop5).
Lemma loop5_same : same_model loop5 loop5'.
Proof.
  assert (U : forall n n', In n (bnodes loop5) -> In n' (bnodes loop5) -> dn_name n = dn_name n' -> n = n').
  { intros n n' Hn Hn' E. cbn [loop5 bnodes In] in Hn, Hn'.
    destruct Hn as [<-|[<-|[<-|[<-|[<-|[]]]]]]; destruct Hn' as [<-|[<-|[<-|[<-|[<-|[]]]]]]; try discriminate E; reflexivity. }
  split; [apply Permutation_refl| |]; intros n n' *; cbn [loop5' bnodes]; intros Hn Hn' E; rewrite (U n n' Hn Hn' E); reflexivity.
Qed.
Theorem C88_tree_default_refuted : exists (SO : SetOrder) b b' t t' f f', wf_bn b /\ wf_graph b /\ nonneg_bn b /\ edges_match b /\ one_component b /\
  wf_bn b' /\ wf_graph b' /\ edges_match b' /\ bnodes b = bnodes b' /\ bedges b = bedges b' /\ same_model b b' /\
  create_jointree b None = Ok t /\ create_jointree b' None = Ok t' /\
  snd (tmarginals t ["D"]) = Ok f /\ snd (tmarginals t' ["D"]) = Ok f' /\
  potential_at f' [("D", "t")] = posterior b [] [("D", "t")] /\ potential_at f [("D", "t")] <> posterior b [] [("D", "t")].
Proof.
  exists listing_order, loop5, loop5'. do 4 eexists.
  split; [apply wf_bnb_ok; vm_compute; reflexivity|]. split; [apply wf_graphb_ok; vm_compute; reflexivity|].
  split; [apply nonnegb_ok; vm_compute; reflexivity|]. split; [apply edges_matchb_ok; vm_compute; reflexivity|].
  split; [apply (chained_ok loop5 ["A"; "B"; "C"; "D"; "E"]); [reflexivity|cbn; tauto]|].
  split; [apply wf_bnb_ok; vm_compute; reflexivity|]. split; [apply wf_graphb_ok; vm_compute; reflexivity|]. split; [apply edges_matchb_ok; vm_compute; reflexivity|].
  split; [reflexivity|]. split; [reflexivity|]. split; [exact loop5_same|].
  split; [vm_compute; reflexivity|]. split; [vm_compute; reflexivity|]. split; [vm_compute; reflexivity|]. split; [vm_compute; reflexivity|].
  split; [qc|]. intros E. apply (f_equal this) in E. vm_compute in E. discriminate.
Qed.

Print Assumptions C88_posterior.
Print Assumptions C88_naive.
Print Assumptions C88_bucket.
Print Assumptions C88_tree_partial.
Print Assumptions C88_api.
Print Assumptions C88_sampling.
Print Assumptions C88_positions_refuted.
Print Assumptions C88_tree_default_refuted.
