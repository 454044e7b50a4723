(** Properties C11-C14, C46: variable elimination and elimination orders. *)
From Verif Require Import Base BaseFacts NDArray Factor Exact Spec Order OrderSpec FactorSpec
  FactorProofs VEProof VEProof2 OrderProof Checks Instances ExampleNets.

Definition ev_example : evidence := [("D", Hard "t"); ("B", Soft [qq 1 2; qq 1 1; 0%Qc])].

Lemma net_wf : wf_bn net. Proof. apply wf_bnb_ok. vm_compute. reflexivity. Qed.
Lemma net_graph : wf_graph net. Proof. apply wf_graphb_ok. vm_compute. reflexivity. Qed.
Lemma net_nonneg : nonneg_bn net. Proof. apply nonnegb_ok. vm_compute. reflexivity. Qed.
Lemma net_ev : ev_ok net ev_example. Proof. apply ev_okb_ok. vm_compute. reflexivity. Qed.

(** ** C11.  [reports b r Q P]: r is a factor over exactly Q with the network's
    value lists and potential P q at every instantiation q of Q. *)
Theorem C11_naive_is_posterior {SO : SetOrder} b Q ev :
  wf_bn b -> nonneg_bn b -> ev_ok b ev -> incl Q (bnames b) ->
  exists r, naive_marginals b Q ev = Ok r /\ reports b r Q (posterior b ev).
Proof. intros WB. exact (naive_reports b WB Q ev). Qed.

Example C11_example :
  wf_bn net /\ nonneg_bn net /\ ev_ok net ev_example /\ incl ["C"; "A"] (bnames net) /\
  exists r, @naive_marginals listing_order net ["C"; "A"] ev_example = Ok r /\
    potential_at r [("A", "t"); ("C", "t")] = posterior net ev_example [("A", "t"); ("C", "t")] /\
    (0 < potential_at r [("A", "t"); ("C", "t")])%Qc.
Proof.
  split; [exact net_wf|]. split; [exact net_nonneg|]. split; [exact net_ev|].
  split; [apply inclb_ok; reflexivity|]. eexists. split; [vm_compute; reflexivity|].
  split; [qc|vm_compute; reflexivity].
Qed.

(** ** C12 *)
Theorem C12_bucket_is_posterior {SO : SetOrder} b Q ev o :
  wf_bn b -> nonneg_bn b -> ev_ok b ev -> incl (dkeys ev) (bnames b) ->
  NoDup Q -> incl Q (bnames b) ->
  (o = None \/ o = Some [] -> wf_graph b) ->
  (forall l, o = Some l -> l <> [] -> Permutation (bnames b) l) ->
  exists r, bucket_query b Q ev o = Ok r /\ reports b r Q (posterior b ev).
Proof. intros WB. exact (bucket_any_order b WB Q ev o). Qed.

Theorem C12_bucket_agrees_with_naive {SO : SetOrder} b Q ev o :
  wf_bn b -> nonneg_bn b -> ev_ok b ev -> incl (dkeys ev) (bnames b) ->
  NoDup Q -> incl Q (bnames b) ->
  (o = None \/ o = Some [] -> wf_graph b) ->
  (forall l, o = Some l -> l <> [] -> Permutation (bnames b) l) ->
  exists r1 r2, bucket_query b Q ev o = Ok r1 /\ naive_marginals b Q ev = Ok r2 /\
    forall q, is_inst b Q q -> potential_at r1 q = potential_at r2 q.
Proof.
  intros WB NN EV K ND I G P.
  destruct (bucket_any_order b WB Q ev o NN EV K ND I G P) as (r1 & E1 & R1).
  destruct (naive_reports b WB Q ev NN EV I) as (r2 & E2 & R2).
  exists r1, r2. split; [exact E1|]. split; [exact E2|]. intros q Hq.
  rewrite (proj2 (proj2 (proj2 (proj2 (proj2 (proj2 R1))))) q Hq).
  rewrite (proj2 (proj2 (proj2 (proj2 (proj2 (proj2 R2))))) q Hq). reflexivity.
Qed.

Example C12_example :
  wf_bn net /\ nonneg_bn net /\ ev_ok net ev_example /\ incl (dkeys ev_example) (bnames net) /\ wf_graph net /\
  Permutation (bnames net) ["C"; "A"; "D"; "B"] /\
  (exists r, @bucket_query reversed_order net ["D"; "A"] ev_example (Some ["C"; "A"; "D"; "B"]) = Ok r /\
     (0 < potential_at r [("A", "t"); ("D", "t")])%Qc) /\
  (exists r, @bucket_query reversed_order net ["D"; "A"] ev_example None = Ok r /\
     (0 < potential_at r [("A", "t"); ("D", "t")])%Qc).
Proof.
  split; [exact net_wf|]. split; [exact net_nonneg|]. split; [exact net_ev|].
  split; [apply inclb_ok; reflexivity|]. split; [exact net_graph|].
  split; [apply permb_ok; reflexivity|].
  split; (eexists; split; [vm_compute; reflexivity|vm_compute; reflexivity]).
Qed.

(** Duplicate query variables are not covered: they make bucket elimination stop
    too early and the result is not a factor over the query. *)
Theorem C12_duplicate_query_refuted :
  exists (SO : SetOrder) b Q o r, wf_bn b /\ nonneg_bn b /\ incl Q (bnames b) /\ Permutation (bnames b) o /\
    bucket_query b Q [] (Some o) = Ok r /\ ~ (forall v, In v (vorder r) <-> In v Q).
Proof.
  exists listing_order, (mkBN [leaf "A"; leaf "B"] ["A"; "B"] []), ["A"; "A"], ["A"; "B"]. eexists.
  split; [apply wf_bnb_ok; vm_compute; reflexivity|]. split; [apply nonnegb_ok; vm_compute; reflexivity|].
  split; [apply inclb_ok; reflexivity|]. split; [apply permb_ok; reflexivity|].
  split; [vm_compute; reflexivity|]. intros H. specialize (proj1 (H "B")). clear H. vm_compute. intros H.
  destruct H as [E|[E|[]]]; [tauto|discriminate E|discriminate E].
Qed.

(** ** C13 *)
Theorem C13_naive_distribution {SO : SetOrder} b Q ev r :
  wf_bn b -> nonneg_bn b -> ev_ok b ev -> NoDup Q -> incl Q (bnames b) ->
  naive_marginals b Q ev = Ok r ->
  Forall (fun x => 0 <= x)%Qc (data (pot r)) /\
  (mass b ev [] <> 0%Qc -> qsum (data (pot r)) = 1%Qc) /\
  (mass b ev [] = 0%Qc -> Forall (fun x => x = 0%Qc) (data (pot r))).
Proof.
  intros WB NN EV ND I E. destruct (naive_reports b WB Q ev NN EV I) as (r' & E' & R).
  assert (r' = r) by congruence. subst r'. exact (reports_distribution b WB r Q ev NN EV ND I R).
Qed.

Theorem C13_bucket_distribution {SO : SetOrder} b Q ev o r :
  wf_bn b -> nonneg_bn b -> ev_ok b ev -> incl (dkeys ev) (bnames b) -> NoDup Q -> incl Q (bnames b) ->
  (o = None \/ o = Some [] -> wf_graph b) ->
  (forall l, o = Some l -> l <> [] -> Permutation (bnames b) l) ->
  bucket_query b Q ev o = Ok r ->
  Forall (fun x => 0 <= x)%Qc (data (pot r)) /\
  (mass b ev [] <> 0%Qc -> qsum (data (pot r)) = 1%Qc) /\
  (mass b ev [] = 0%Qc -> Forall (fun x => x = 0%Qc) (data (pot r))).
Proof.
  intros WB NN EV K ND I G P E. destruct (bucket_any_order b WB Q ev o NN EV K ND I G P) as (r' & E' & R).
  assert (r' = r) by congruence. subst r'. exact (reports_distribution b WB r Q ev NN EV ND I R).
Qed.

Example C13_example :
  wf_bn net /\ nonneg_bn net /\ ev_ok net ev_example /\ mass net ev_example [] <> 0%Qc /\
  mass net [("A", Hard "t"); ("B", Hard "z")] [] = 0%Qc /\
  exists r, @naive_marginals listing_order net ["C"] [("A", Hard "t"); ("B", Hard "z")] = Ok r.
Proof.
  split; [exact net_wf|]. split; [exact net_nonneg|]. split; [exact net_ev|].
  split; [intros H; apply (f_equal this) in H; vm_compute in H; discriminate|].
  split; [qc|]. eexists. vm_compute. reflexivity.
Qed.

(** ** C14.  Missing for the full claim: the graph is the skeleton of the
    network, not the interaction graph of the tables (see the refutation). *)
Theorem C14_min_degree_order_partial b : wf_graph b ->
  exists r, get_min_degree_order b = Ok r /\ Permutation (bnames b) r /\
    forall pre v post, r = pre ++ v :: post -> forall w, In w (v :: post) -> forall n m,
      degree_is b (rev pre) v n -> degree_is b (rev pre) w m -> n <= m.
Proof. exact (min_degree_greedy b). Qed.

Theorem C14_interaction_graph_refuted :
  exists b v w rest lv lw, wf_bn b /\ wf_graph b /\ get_min_degree_order b = Ok (v :: rest) /\ In w rest /\
    NoDup lv /\ NoDup lw /\ (forall u, In u lv <-> interacts b v u) /\ (forall u, In u lw <-> interacts b w u) /\
    length lw < length lv.
Proof.
  exists star, "X", "U", ["Y"; "Z"; "W"; "U"; "V"], ["Y"; "Z"; "W"], ["V"].
  split; [apply wf_bnb_ok; vm_compute; reflexivity|]. split; [apply wf_graphb_ok; vm_compute; reflexivity|].
  split; [vm_compute; reflexivity|]. split; [cbn; tauto|].
  split; [apply nodup_s_spec; reflexivity|]. split; [apply nodup_s_spec; reflexivity|].
  assert (D : forall v u, interacts star v u <->
     (v <> u /\ existsb (fun n => mem v (dn_name n :: map fst (dn_parents n)) && mem u (dn_name n :: map fst (dn_parents n))) (bnodes star) = true)).
  { intros v u. unfold interacts. rewrite existsb_exists. setoid_rewrite andb_true_iff. setoid_rewrite mem_In. tauto. }
  split; [|split; [|cbn; lia]].
  - intros u. rewrite D. split.
    + intros [<-|[<-|[<-|[]]]]; (split; [discriminate|reflexivity]).
    + intros [N E]. apply existsb_exists in E as (n & Hn & E). apply andb_true_iff in E as [E1 E2].
      apply mem_In in E2. cbn in Hn.
      destruct Hn as [<-|[<-|[<-|[<-|[<-|[<-|[]]]]]]]; try discriminate E1; cbn in E2; cbn; intuition congruence.
  - intros u. rewrite D. split.
    + intros [<-|[]]; (split; [discriminate|reflexivity]).
    + intros [N E]. apply existsb_exists in E as (n & Hn & E). apply andb_true_iff in E as [E1 E2].
      apply mem_In in E2. cbn in Hn.
      destruct Hn as [<-|[<-|[<-|[<-|[<-|[<-|[]]]]]]]; try discriminate E1; cbn in E2; cbn; intuition congruence.
Qed.

Example C14_example : wf_graph net /\ get_min_degree_order net = Ok ["D"; "A"; "B"; "C"].
Proof. split; [exact net_graph|]. vm_compute. reflexivity. Qed.

(** The order called random lists every node exactly once, like the other one. *)
Theorem C14_random_order b : wf_bn b -> wf_graph b ->
  NoDup (get_random_order b) /\ (forall v, In v (get_random_order b) <-> exists n, In n (bnodes b) /\ dn_name n = v) /\
  exists r, get_min_degree_order b = Ok r /\ Permutation (get_random_order b) r.
Proof.
  intros WB WG. destruct (min_degree_greedy b WG) as (r & E & P & _). split; [exact (wb_names b WB)|]. split; [|now exists r].
  intros v. unfold get_random_order, bnames. rewrite in_map_iff. split; intros (n & A & B); exists n; auto.
Qed.

Example C14_random_example : wf_bn net /\ wf_graph net /\ length (get_random_order net) = 4.
Proof. split; [exact net_wf|]. split; [exact net_graph|]. vm_compute. reflexivity. Qed.

(** ** C46 is false: the caller's order list is reordered in place. *)
Theorem C46_order_modified_refuted {SO : SetOrder} :
  exists b Q o, wf_bn b /\ nonneg_bn b /\ NoDup Q /\ incl Q (bnames b) /\ Permutation (bnames b) o /\
    fst (bucket_marginals b Q [] o) <> o.
Proof.
  exists net, ["A"], ["A"; "B"; "C"; "D"]. split; [exact net_wf|]. split; [exact net_nonneg|].
  split; [apply nodup_s_spec; reflexivity|]. split; [apply inclb_ok; reflexivity|].
  split; [apply permb_ok; reflexivity|]. cbn. discriminate.
Qed.

(** What the call leaves in the list: the query variables moved to the end. *)
Theorem C46_order_after_call_partial {SO : SetOrder} b Q ev o :
  wf_bn b -> nonneg_bn b -> ev_ok b ev -> incl (dkeys ev) (bnames b) ->
  NoDup Q -> incl Q (bnames b) -> Permutation (bnames b) o ->
  fst (bucket_marginals b Q ev o) = filter (fun v => negb (mem v Q)) o ++ Q.
Proof.
  intros WB NN EV K ND I P. destruct (bucket_exact b WB ev EV Q o NN ND I K P) as (r & E & _).
  rewrite E. reflexivity.
Qed.

Print Assumptions C11_naive_is_posterior.
Print Assumptions C12_bucket_is_posterior.
Print Assumptions C12_bucket_agrees_with_naive.
Print Assumptions C12_duplicate_query_refuted.
Print Assumptions C13_naive_distribution.
Print Assumptions C13_bucket_distribution.
Print Assumptions C14_min_degree_order_partial.
Print Assumptions C14_interaction_graph_refuted.
Print Assumptions C14_random_order.
Print Assumptions C46_order_modified_refuted.
Print Assumptions C46_order_after_call_partial.
