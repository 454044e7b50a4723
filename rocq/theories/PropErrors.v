(** C70.  Wrong uses raise the exception the code names for them, and nothing else does. *)
From Verif Require Import Base BaseFacts NDArray Factor Exact Spec SpecFacts Order OrderSpec Node Network NetSpec NetInv NetOps NetFacts NetTop NetView NetTable
  Checks FactorProofs Instances ExampleNets NetChecks Sampling JoinTree Decision DecSpec DecInv ErrSpec ErrProof ErrProof2 ErrProof3 ErrProof4 PropVE PropNet PropDecision.

(** ** Calls on a network and its nodes.  [raises] (ErrSpec.v) lists seven cases; a call within the
    contract raises exactly in these cases, the listed exception, and then changes nothing. *)
Theorem C70_calls w o : reached w -> within w o -> objects_exist w o ->
  (forall e, snd (exec w o) = Err e <-> raises w o e) /\ (snd (exec w o) <> Ok tt -> fst (exec w o) = w).
Proof. exact (calls_raise w o). Qed.

Example C70_calls_example : reached garden /\
  (within garden (AddEdge "moon" "wet") /\ raises garden (AddEdge "moon" "wet") PlainException) /\
  (within garden (AddNode 0) /\ raises garden (AddNode 0) ValueError) /\
  (within garden (RemoveEdge "wet" "weather") /\ raises garden (RemoveEdge "wet" "weather") KeyError) /\
  (objects_exist garden (SetProb 1 "y" 0%Qc [("weather", "hail")]) /\ raises garden (SetProb 1 "y" 0%Qc [("weather", "hail")]) ValueError) /\
  (forall e, ~ raises garden (SetProb 1 "y" 0%Qc [("moon", "hail")]) e).
Proof.
  assert (C := iv_c _ (reached_inv _ garden_reached)).
  assert (H : holds garden "wet" 1 (deref (whp garden) 1)) by (split; vm_compute; reflexivity).
  split; [exact garden_reached|]. split; [|split; [|split; [|split]]].
  - split.
    + intros X. unfold edge in X. rewrite garden_edges in X. destruct X as [X|[X|[]]]; discriminate X.
    + constructor. intros [X _]. vm_compute in X. repeat (destruct X as [X|X]; [discriminate X|]). exact X.
  - assert (E : match nth_error (whp garden) 0 with Some m => nkind m = KDiscrete /\ nporder m = [] | None => False end) by (vm_compute; split; reflexivity).
    assert (M : match nth_error (whp garden) 0 with Some m => mem (nname m) (names garden) = true | None => False end) by (vm_compute; reflexivity).
    split; [intros n Hn; rewrite Hn in E; exact E|].
    destruct (nth_error (whp garden) 0) as [m|] eqn:Hm; [|destruct E]. apply mem_In in M. exact (R_twice _ 0 m Hm M).
  - split; [exact Logic.I|]. apply (R_no_edge garden "wet" "weather"); [apply (proj1 (mem_In _ _)); vm_compute; reflexivity..|]. unfold edge. rewrite garden_edges.
    intros [X|[X|[]]]; discriminate X.
  - split; [exists "wet"; eexists; exact H|]. eapply R_value; [exact H|]. right. exists "weather", "hail". split; [apply (proj1 (mem_In _ _)); vm_compute; reflexivity|].
    split; [reflexivity|]. vm_compute. intros [X|[X|[X|[]]]]; discriminate X.
  - intros e X. assert (Y : snd (exec garden (SetProb 1 "y" 0%Qc [("moon", "hail")])) = Err e).
    { apply (proj1 (calls_raise garden (SetProb 1 "y" 0%Qc [("moon", "hail")]) garden_reached Logic.I (ex_intro _ "wet" (ex_intro _ _ H)))). exact X. }
    vm_compute in Y. discriminate Y.
Qed.

(** ** Reading tables.  get_probability raises ValueError exactly for unknown values.  Of
    _get_single_probability, which also wants a value for every parent: it raises exactly if a value is
    unknown or missing, ValueError only for an unknown and KeyError only for a missing one. *)
Theorem C70_reads w v i n x pv st : reached w -> holds w v i n ->
  (forall e, get_probability (whp w) n x pv = Err e <-> e = ValueError /\ (unknown_value n x \/ unknown_pick w n pv)) /\
  ((exists e, single_probability (whp w) n x st = Err e) <-> unknown_value n x \/ wrong (vals_of w) n st \/ missing n st) /\
  (forall e, single_probability (whp w) n x st = Err e ->
     e = ValueError /\ (unknown_value n x \/ wrong (vals_of w) n st) \/ e = KeyError /\ missing n st /\ ~ unknown_value n x).
Proof. exact (reads_raise w v i n x pv st). Qed.

Example C70_reads_example : let n := deref (whp garden) 1 in reached garden /\ holds garden "wet" 1 n /\
  get_probability (whp garden) n "y" [("weather", Many ["snow"; "hail"])] = Err ValueError /\
  single_probability (whp garden) n "y" [("weather", "hail")] = Err ValueError /\
  single_probability (whp garden) n "y" [("sprinkler", "off")] = Err KeyError /\
  (exists q, single_probability (whp garden) n "y" garden_state = Ok q).
Proof.
  cbv zeta. split; [exact garden_reached|]. split; [split; vm_compute; reflexivity|]. do 3 (split; [vm_compute; reflexivity|]).
  eexists. vm_compute. reflexivity.
Qed.

(** ** Methods of another class.  Utility and decision nodes inherit set_cpd from the base class, which
    raises NotImplementedError; the other methods do not exist for them. *)
Theorem C70_wrong_class h n int a x q pv pk d :
  (nkind n <> KDiscrete -> set_cpd n int a = Err NotImplementedError /\ set_probability h n x q pv = Err AttributeError /\
     get_probability h n x pk = Err AttributeError /\ single_probability h n x pv = Err AttributeError /\
     (forall c p, nth_error h c = Some n -> remove_parent h c p = (h, Err AttributeError)) /\
     (forall c vs, nth_error h c = Some n -> set_values h c vs = (h, Err AttributeError))) /\
  (nkind n <> KUtility -> set_utilities n int a = Err AttributeError /\ set_utility h n q pv = Err AttributeError /\ get_utility h n pv = Err AttributeError) /\
  (nkind n <> KDecision -> set_decision n d = (n, Err AttributeError) /\ fully_mixed n = Err AttributeError).
Proof. exact (wrong_class h n int a x q pv pk d). Qed.

(** ** Decision networks.  [draises] lists the cases; after an exception everything is as before,
    except that set_decision has already cleared the table (C36). *)
Theorem C70_decision_calls w o : dreached w -> dwithin w o -> (forall i, dobject_of o = Some i -> exists n, nth_error (dheap w) i = Some n) ->
  (forall e, snd (dexec w o) = Err e <-> draises w o e) /\
  (snd (dexec w o) <> Ok tt -> (forall i d, o <> DDecide i d) -> fst (dexec w o) = w).
Proof. exact (dcalls_raise w o). Qed.

Example C70_decision_example : dreached party /\
  draises party (DEdge "nobody" "joy") KeyError /\ draises party (DCpd 1 false (scalar 0%Qc)) NotImplementedError /\
  draises party (DUtility 3 0%Qc [("fun", "maybe")]) ValueError /\ draises party (DDecide 1 "moon") ValueError /\ draises party (DDecide 2 "t") AttributeError /\
  draises (fst (dexec party (DNew KUtility "new" []))) (DUtility 5 0%Qc []) TypeError.
Proof.
  split; [exact party_reached|]. split; [|split; [|split; [|split; [|split]]]].
  - constructor. intros [X _]. vm_compute in X. repeat (destruct X as [X|X]; [discriminate X|]). exact X.
  - eapply D_cpd_class; [vm_compute; reflexivity|discriminate].
  - eapply D_util; [vm_compute; reflexivity|reflexivity|]. exists "fun", "maybe". split; [left; reflexivity|]. split; [reflexivity|].
    vm_compute. intros [X|[X|[]]]; discriminate X.
  - eapply D_decide; [vm_compute; reflexivity|reflexivity|]. split; [discriminate|]. cbn. intros [X|[X|[]]]; discriminate X.
  - eapply D_decide_class; [vm_compute; reflexivity|discriminate].
  - eapply D_util_fresh; [vm_compute; reflexivity|reflexivity|reflexivity].
Qed.

(** get_utility: an unknown value, a missing one, or a node whose utilities were never set. *)
Theorem C70_get_utility w i n st : dreached w -> nth_error (dheap w) i = Some n -> nkind n = KUtility ->
  ((exists e, get_utility (dheap w) n st = Err e) <-> wrong (dpvals (dheap w) n) n st \/ missing n st \/ exists q, ncpd n = TNum q) /\
  (forall e, get_utility (dheap w) n st = Err e ->
     e = ValueError /\ wrong (dpvals (dheap w) n) n st \/ e = KeyError /\ missing n st \/ e = TypeError /\ exists q, ncpd n = TNum q).
Proof. exact (utility_raises w i n st). Qed.

Example C70_get_utility_example : let n := deref (dheap party) 3 in dreached party /\ nth_error (dheap party) 3 = Some n /\ nkind n = KUtility /\
  get_utility (dheap party) n [("fun", "t")] = Err KeyError /\ get_utility (dheap party) n [("fun", "maybe")] = Err ValueError /\
  exists q, get_utility (dheap party) n [("fun", "t"); ("weather", "sun")] = Ok q.
Proof.
  cbv zeta. split; [exact party_reached|]. split; [vm_compute; reflexivity|]. split; [reflexivity|]. do 2 (split; [vm_compute; reflexivity|]).
  eexists. vm_compute. reflexivity.
Qed.

(** ** Queries by variable elimination.  naive_marginals ignores names that are not in the network,
    of query variables as of evidence; bucket_marginals does not. *)
Theorem C70_naive {SO : SetOrder} b Q ev : wf_bn b -> nonneg_bn b -> NoDup (dkeys ev) -> weights_ok ev ->
  ((exists r, naive_marginals b Q ev = Ok r) /\ forall v e, In (v, e) ev -> In v (bnames b) -> ~ improper b v e) \/
  (naive_marginals b Q ev = Err ValueError /\ exists v e, In (v, e) ev /\ In v (bnames b) /\ improper b v e).
Proof. intros WB NN. exact (naive_outcome b WB NN Q ev). Qed.

Theorem C70_bucket {SO : SetOrder} b Q ev o : wf_bn b -> nonneg_bn b -> NoDup (dkeys ev) -> weights_ok ev -> NoDup Q ->
  (o = None \/ o = Some [] -> wf_graph b) -> (forall l, o = Some l -> l <> [] -> Permutation (bnames b) l) ->
  ((exists r, bucket_query b Q ev o = Ok r) /\ incl Q (bnames b) /\ incl (dkeys ev) (bnames b) /\ forall v e, In (v, e) ev -> ~ improper b v e) \/
  (bucket_query b Q ev o = Err ValueError /\
    ((exists v, In v Q /\ ~ In v (bnames b)) \/ (exists v, In v (dkeys ev) /\ ~ In v (bnames b)) \/ exists v e, In (v, e) ev /\ In v (bnames b) /\ improper b v e)).
Proof. intros WB NN. exact (bucket_outcome b WB NN Q ev o). Qed.

Example C70_query_example : let ev := [("A", Hard "t"); ("C", Soft [qq 1 2])] in let ev' := [("A", Hard "t"); ("Nope", Hard "t")] in
  wf_bn net /\ nonneg_bn net /\ wf_graph net /\ NoDup (dkeys ev) /\ weights_ok ev /\ improper net "C" (Soft [qq 1 2]) /\
  @naive_marginals listing_order net ["A"] ev = Err ValueError /\
  (exists r, @naive_marginals listing_order net ["A"] ev' = Ok r) /\ @bucket_query listing_order net ["A"] ev' None = Err ValueError /\
  (exists r, @naive_marginals listing_order net ["Nope"] [] = Ok r) /\ @bucket_query listing_order net ["Nope"] [] None = Err ValueError.
Proof.
  cbv zeta. split; [exact net_wf|]. split; [exact net_nonneg|]. split; [apply wf_graphb_ok; vm_compute; reflexivity|].
  split; [apply nodup_s_spec; reflexivity|]. split.
  { intros v q [X|[X|[]]]; [discriminate|]. injection X as <- <-. constructor; [apply qleb_true; vm_compute; reflexivity|constructor]. }
  split; [vm_compute; discriminate|]. split; [vm_compute; reflexivity|]. split; [eexists; vm_compute; reflexivity|]. split; [vm_compute; reflexivity|].
  split; [eexists; vm_compute; reflexivity|vm_compute; reflexivity].
Qed.

(** The two do not treat unknown names alike. *)
Theorem C70_names_refuted : exists (SO : SetOrder) b Q ev r, wf_bn b /\ nonneg_bn b /\ wf_graph b /\ ev_ok b ev /\ NoDup Q /\ incl Q (bnames b) /\
  naive_marginals b Q ev = Ok r /\ bucket_query b Q ev None = Err ValueError.
Proof.
  exists listing_order, net, ["A"], [("A", Hard "t"); ("Nope", Hard "t")]. eexists. split; [exact net_wf|]. split; [exact net_nonneg|].
  split; [apply wf_graphb_ok; vm_compute; reflexivity|]. split.
  { split; [apply nodup_s_spec; reflexivity|]. intros v e [X|[X|[]]] I; injection X as <- <-; vm_compute in I |- *; [auto|].
    repeat (destruct I as [I|I]; [discriminate I|]). destruct I. }
  split; [apply nodup_s_spec; reflexivity|]. split; [apply inclb_ok; reflexivity|]. split; vm_compute; reflexivity.
Qed.

(** ** Soft evidence as a desired posterior (factor.py:486-505): an empty array raises ValueError; a
    division by zero happens exactly if the largest weight is 0 and another value is possible. *)
Theorem C70_soft_posterior v vals q old : length q = length vals -> length old = length vals ->
  (vals = [] -> as_evidence v vals (Soft q) (Some old) = Err ValueError) /\
  (forall ref refEv, argmax q = Some (ref, refEv) ->
    (refEv = 0%Qc /\ (exists i, i <> ref /\ i < length vals /\ nth i old 0%Qc <> 0%Qc) /\ as_evidence v vals (Soft q) (Some old) = Err NonFinite) \/
    (~ (refEv = 0%Qc /\ exists i, i <> ref /\ i < length vals /\ nth i old 0%Qc <> 0%Qc) /\ exists f, as_evidence v vals (Soft q) (Some old) = Ok f)).
Proof. exact (soft_outcome v vals q old). Qed.

Example C70_soft_posterior_example :
  argmax [0%Qc; 0%Qc] = Some (0, 0%Qc) /\ as_evidence "A" tf (Soft [0%Qc; 0%Qc]) (Some [qq 1 2; qq 1 2]) = Err NonFinite /\
  exists f, as_evidence "A" tf (Soft [0%Qc; 0%Qc]) (Some [1%Qc; 0%Qc]) = Ok f.
Proof. split; [vm_compute; reflexivity|]. split; [vm_compute; reflexivity|]. eexists. vm_compute. reflexivity. Qed.

(** For an old marginal of any length: the first position that something is wrong with decides. *)
Theorem C70_short_posterior v vals q old ref refEv e : length q = length vals -> argmax q = Some (ref, refEv) ->
  as_evidence v vals (Soft q) (Some old) = Err e <-> exists i, troubled q old ref i e /\ forall j e', j < i -> ~ troubled q old ref j e'.
Proof.
  intros L A. destruct (soft_short v vals q old ref refEv L A) as [(f & -> & N)|(i & e0 & -> & T & N)].
  - split; [discriminate|]. intros (i & T & _). destruct (N i e T).
  - split; [intros [= <-]; exists i; auto|]. intros (j & T' & N'). f_equal. destruct (Nat.lt_trichotomy i j) as [X|[->|X]]; [destruct (N' i e0 X T)| |destruct (N j e X T')].
    inversion T; inversion T'; subst; congruence || lia.
Qed.

Example C70_short_posterior_example :
  argmax [0%Qc; 1%Qc] = Some (1, 1%Qc) /\ troubled [0%Qc; 1%Qc] [1%Qc] 1 0 IndexError /\
  as_evidence "A" tf (Soft [0%Qc; 1%Qc]) (Some [1%Qc]) = Err IndexError /\
  as_evidence "A" tf (Soft [0%Qc; 1%Qc]) (Some []) = Err IndexError /\
  exists f, as_evidence "A" tf (Soft [0%Qc; 1%Qc]) (Some [0%Qc]) = Ok f.
Proof.
  split; [vm_compute; reflexivity|]. split; [apply T_short_ref; cbn; [lia|lia|lia|discriminate|lia]|].
  split; [vm_compute; reflexivity|]. split; [vm_compute; reflexivity|]. eexists. vm_compute. reflexivity.
Qed.

(** ** Nothing to work on: reduce() of no factors (decision.py:28-46), unknown nodes in get_children
    (networks.py:143-158), and the method that is not implemented (exact.py:379-380). *)
Theorem C70_nothing {SO : SetOrder} {BO : BagOrder} h ds (b : bn) v :
  snd (Decision.expected_utility (mkDW h []) ds) = Err (match ds with [] => TypeError | _ => KeyError end) /\
  (~ In v (border b) -> Sampling.get_children b v = Err KeyError) /\ JoinTree.get_evidence_probability = Err NotImplementedError.
Proof.
  split; [|split; [|reflexivity]].
  - destruct ds as [|[u d] ds]; [|reflexivity]. unfold Decision.expected_utility. cbn [decide_all snd]. unfold net_factors, chance_names. cbn.
    unfold generalized_VE. cbn [eliminate rbind length]. destruct (bag 0 []) as [|x l] eqn:E; [reflexivity|].
    assert (P := bag_perm 0 (@nil jfactor)). rewrite E in P. apply Permutation_sym, Permutation_nil in P. discriminate.
  - intros N. unfold Sampling.get_children. destruct (mem v (border b)) eqn:M; [apply mem_In in M; contradiction|reflexivity].
Qed.

Print Assumptions C70_nothing.
Print Assumptions C70_calls.
Print Assumptions C70_names_refuted.
Print Assumptions C70_reads.
Print Assumptions C70_wrong_class.
Print Assumptions C70_decision_calls.
Print Assumptions C70_get_utility.
Print Assumptions C70_naive.
Print Assumptions C70_bucket.
Print Assumptions C70_soft_posterior.
Print Assumptions C70_short_posterior.
