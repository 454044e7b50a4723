(** Properties C33-C36, and the parts of C07 and C26 about utility nodes. *)
From Verif Require Import Base BaseFacts NDArray Factor Exact Spec Node Network NetSpec NetView NetTable MCSpec MCChecks Checks Decision DecSpec DecInv DecView DecFacts
  DecOpt DecTable DecChecks Instances ExampleNets.

(** Example: a party takes place inside or outside; the weather and the place
    decide whether it is fun; outside costs 3. *)
Definition party_ops : list dop :=
  [DNew KDiscrete "weather" ["sun"; "rain"]; DNew KDecision "place" ["in"; "out"]; DNew KDiscrete "fun" tf;
   DNew KUtility "joy" []; DNew KUtility "cost" [];
   DAdd 0; DAdd 1; DAdd 2; DAdd 3; DAdd 4;
   DEdge "weather" "fun"; DEdge "place" "fun"; DEdge "fun" "joy"; DEdge "nobody" "joy"; DEdge "weather" "joy"; DEdge "place" "cost";
   DCpd 0 false (mkArr [2] [qq 2 5; qq 3 5]);
   DCpd 2 false (mkArr [2; 2; 2] [qq 1 2; qq 9 10; qq 7 10; qq 1 10; qq 1 2; qq 1 10; qq 3 10; qq 9 10]);
   DUtilities 3 false (mkArr [2; 2] [qq 50 1; qq 40 1; qq 10 1; qq (-5) 1]);
   DUtility 3 (qq 45 1) [("fun", "t"); ("weather", "rain")];
   DUtilities 4 false (mkArr [2] [qq 0 1; qq (-3) 1]);
   DDecide 1 "in"; DDecide 1 "moon"; DMixed 1].
Definition party : dworld := drun dstart party_ops.

Lemma party_reached : dreached party.
Proof. apply dreached_run; [apply dreached_start|]. vm_compute. reflexivity. Qed.
Lemma party_tidy : dtidy party.
Proof. apply dtidyb_ok. vm_compute. reflexivity. Qed.

(** Two decisions that have to be coordinated. *)
Definition meet_ops : list dop :=
  [DNew KDecision "a" ["0"; "1"]; DNew KDecision "b" ["0"; "1"]; DNew KUtility "u" []; DAdd 0; DAdd 1; DAdd 2;
   DEdge "a" "u"; DEdge "b" "u"; DUtilities 2 false (mkArr [2; 2] [qq 10 1; qq (-20) 1; qq 0 1; qq 0 1])].
Definition meet : dworld := drun dstart meet_ops.
Lemma meet_reached : dreached meet.
Proof. apply dreached_run; [apply dreached_start|]. vm_compute. reflexivity. Qed.
Lemma meet_tidy : dtidy meet.
Proof. apply dtidyb_ok. vm_compute. reflexivity. Qed.

(** A decision that observes a chance variable. *)
Definition seen_ops : list dop :=
  [DNew KDiscrete "weather" ["sun"; "rain"]; DNew KDecision "coat" tf; DNew KUtility "u" []; DAdd 0; DAdd 1; DAdd 2;
   DEdge "weather" "coat"; DEdge "coat" "u"; DEdge "weather" "u"; DCpd 0 false (mkArr [2] [qq 2 5; qq 3 5]);
   DUtilities 2 false (mkArr [2; 2] [qq 1 1; qq 2 1; qq 3 1; qq (-4) 1]); DMixed 1].
Definition seen : dworld := drun dstart seen_ops.
Lemma seen_reached : dreached seen.
Proof. apply dreached_run; [apply dreached_start|]. vm_compute. reflexivity. Qed.
Lemma seen_tidy : dtidy seen.
Proof. apply dtidyb_ok. vm_compute. reflexivity. Qed.

(** ** C33.  For every iteration order of sets of variables ([SO]) and of sets of
    factors ([BO]), the result is the 0-dimensional array holding
    [plan_value w ds]: the sum over all joint states that agree with the decisions,
    of the product of the remaining tables times the summed utilities, divided by
    the sum of the products.  That is the quotient of the sums over all joint
    states in the network as it is after the call, where the tables of the decided
    nodes are indicators. *)
Theorem C33_expected_utility (SO : SetOrder) (BO : BagOrder) w ds : dreached w -> dtidy w -> dlook w <> [] ->
  legal_decisions w ds -> nonneg_tables (open_nodes w ds) -> plan_sum w ds (fun _ => 1%Qc) <> 0%Qc ->
  exists w', expected_utility w ds = (w', Ok (scalar (plan_value w ds))) /\ plan_value w ds = plan_value w' [] /\
    dlook w' = dlook w /\ forall v i n, dholds w v i n -> ~ In v (dkeys ds) -> dholds w' v i n.
Proof.
  intros R T NE L NN NZ. assert (I := dreached_inv w R). destruct (expected_utility_ok w ds I T NE L NN NZ) as (w' & E & I' & X).
  exists w'. split; [exact E|]. split; [symmetry; apply (value_decided w w' ds I I' X L T)|]. split; [apply (ex_look _ _ _ X)|].
  intros v i n H N. destruct (ex_objs _ _ _ X v i n H) as (n' & H' & A & _). rewrite <- (A (proj2 (dget_None v ds) N)). exact H'.
Qed.

(** Every decision taken: the chance tables remain. *)
Theorem C33_all_decided (SO : SetOrder) (BO : BagOrder) w ds : dreached w -> dtidy w -> dlook w <> [] ->
  all_decided w ds -> nonneg_tables (dchance w) -> chance_sum w ds (fun _ => 1%Qc) <> 0%Qc ->
  snd (expected_utility w ds) = Ok (scalar (chance_sum w ds (utilities w) / chance_sum w ds (fun _ => 1%Qc))%Qc).
Proof.
  intros R T NE A NN NZ. assert (I := dreached_inv w R). destruct (expected_utility_ok w ds I T NE (proj1 A)) as (w' & E & _).
  - rewrite (open_chance w ds I A). exact NN.
  - rewrite (plan_chance w ds _ I A). exact NZ.
  - rewrite E. cbn [snd]. unfold plan_value. rewrite !(plan_chance w ds _ I A). reflexivity.
Qed.

(** Normalised tables along an acyclic structure: nothing to divide by. *)
Theorem C33_normalised (SO : SetOrder) (BO : BagOrder) w ds order : dreached w -> dtidy w -> dlook w <> [] ->
  legal_decisions w ds -> nonneg_tables (open_nodes w ds) -> stochastic_tables (open_nodes w ds) -> topological (dbn w) order ->
  snd (expected_utility w ds) = Ok (scalar (plan_sum w ds (utilities w))).
Proof.
  intros R T NE L NN ST TO. assert (I := dreached_inv w R). assert (P1 := plan_one w ds order I T L ST TO).
  destruct (expected_utility_ok w ds I T NE L NN) as (w' & E & _); [rewrite P1; discriminate|].
  rewrite E. cbn [snd]. unfold plan_value. rewrite P1. f_equal. f_equal. unfold Qcdiv. replace (/ 1)%Qc with 1%Qc by (apply Qc_is_canon; reflexivity). ring.
Qed.

Lemma party_order : topological (dbn party) ["place"; "weather"; "fun"].
Proof. apply topological_ok; [apply (dbn_wf party (dreached_inv _ party_reached) party_tidy)|vm_compute; reflexivity..]. Qed.

Lemma party_legal d : In d ["in"; "out"] -> legal_decisions party [("place", d)].
Proof. intros [<-|[<-|[]]]; apply legal_decisionsb_ok; vm_compute; reflexivity. Qed.

Lemma party_stochastic d : In d ["in"; "out"] -> stochastic_tables (open_nodes party [("place", d)]).
Proof.
  intros [<-|[<-|[]]]; apply (stochastic_tablesb_ok _ _ (dreached_inv _ party_reached) party_tidy); vm_compute; reflexivity.
Qed.

Example C33_example : dreached party /\ dtidy party /\ dlook party <> [] /\ legal_decisions party [("place", "out")] /\
  all_decided party [("place", "out")] /\
  nonneg_tables (open_nodes party [("place", "out")]) /\ nonneg_tables (dchance party) /\
  stochastic_tables (open_nodes party [("place", "out")]) /\ topological (dbn party) ["place"; "weather"; "fun"] /\
  plan_sum party [("place", "out")] (fun _ => 1%Qc) <> 0%Qc /\ chance_sum party [("place", "out")] (fun _ => 1%Qc) <> 0%Qc /\
  plan_value party [("place", "out")] = qq 154 10 /\ plan_value party [("place", "in")] = qq 30 1 /\ plan_value party [] = qq 227 10.
Proof.
  split; [exact party_reached|]. split; [exact party_tidy|]. split; [vm_compute; discriminate|]. split; [apply party_legal; right; left; reflexivity|].
  split.
  { split; [apply party_legal; right; left; reflexivity|]. intros v i n [D H] K. apply dget_In in D.
    assert (X : forallb (fun p => negb (is_decision (deref (dheap party) (snd p))) || mem (fst p) ["place"]) (dlook party) = true) by (vm_compute; reflexivity).
    rewrite forallb_forall in X. specialize (X _ D). cbn [fst snd] in X. rewrite (NetView.deref_ok _ _ _ H) in X. unfold is_decision in X. rewrite K in X.
    apply mem_In, X. }
  split; [apply nonneg_tablesb_ok; vm_compute; reflexivity|]. split; [apply nonneg_tablesb_ok; vm_compute; reflexivity|].
  split; [apply party_stochastic; right; left; reflexivity|]. split; [exact party_order|].
  split; [intros H; apply (f_equal this) in H; vm_compute in H; discriminate|].
  split; [intros H; apply (f_equal this) in H; vm_compute in H; discriminate|]. split; [|split]; qc.
Qed.

(** ** C34.  With one decision to optimise (the other decision nodes keep their
    rules) the result maximises the expected utility, the first value winning ties. *)
Theorem C34_optimal_partial (SO : SetOrder) (BO : BagOrder) w v i n fixed order : dreached w -> dtidy w -> dholds w v i n ->
  nkind n = KDecision -> nporder n = [] -> (forall d, dget v fixed = Some d -> In d (nvalues n)) ->
  nonneg_tables (open_nodes w [(v, "")]) -> stochastic_tables (open_nodes w [(v, "")]) -> topological (dbn w) order ->
  exists w1 d, optimal_decisions w [v] fixed = (w1, Ok [(v, d)]) /\
    first_best (fun x => plan_value w [(v, x)]) (nvalues n) d /\
    forall x, In x (nvalues n) -> snd (expected_utility w [(v, x)]) = Ok (scalar (plan_value w [(v, x)])).
Proof.
  intros R T H K P FX NN ST TO. assert (I := dreached_inv w R).
  destruct (optimal_single w v i n fixed order I T H K P FX NN ST TO) as (w1 & d & E & FB). exists w1, d. split; [exact E|]. split; [exact FB|].
  intros x Hx. assert (L : legal_decisions w [(v, x)]).
  { split; [constructor; [intros []|constructor]|]. intros u y [X|[]]. injection X as <- <-. exists i, n. auto. }
  destruct (expected_utility_ok w [(v, x)] I T) as (w' & E' & _).
  - intros Z. destruct H as [D _]. rewrite Z in D. discriminate.
  - exact L.
  - exact NN.
  - rewrite (plan_one w [(v, x)] order I T L ST TO). discriminate.
  - rewrite E'. reflexivity.
Qed.

(** With several decisions each is optimised alone, in the network [w1] in which
    all decisions in [order] are mixed evenly or as fixed. *)
Theorem C34_several_partial (SO : SetOrder) (BO : BagOrder) w order fixed w1 : dreached w -> dtidy w -> NoDup order ->
  (forall v, In v order -> optimisable w fixed v) -> (forall v i n, In v order -> dholds w v i n -> nporder n = []) ->
  w1 = fst (prepare w order fixed) -> nonneg_bn (dbn w1) ->
  (forall v i n d, In v order -> dholds w v i n -> In d (nvalues n) -> plan_sum w1 [(v, d)] (fun _ => 1%Qc) <> 0%Qc) ->
  exists sol, optimal_decisions w order fixed = (w1, Ok sol) /\ (forall v, In v (dkeys sol) <-> In v order) /\
    forall v i n, In v order -> dholds w v i n -> exists d, dget v sol = Some d /\ first_best (fun x => plan_value w1 [(v, x)]) (nvalues n) d.
Proof. intros R. exact (optimal_local w order fixed w1 (dreached_inv w R)). Qed.

Example C34_example : let n := deref (dheap party) 1 in
  dreached party /\ dtidy party /\ dholds party "place" 1 n /\ nkind n = KDecision /\ nporder n = [] /\ nvalues n = ["in"; "out"] /\
  nonneg_tables (open_nodes party [("place", "")]) /\ stochastic_tables (open_nodes party [("place", "")]) /\
  topological (dbn party) ["place"; "weather"; "fun"] /\
  snd (@optimal_decisions listing_order forwards party ["place"] []) = Ok [("place", "in")] /\
  snd (@optimal_decisions reversed_order backwards party ["place"] []) = Ok [("place", "in")].
Proof.
  cbv zeta. split; [exact party_reached|]. split; [exact party_tidy|]. split; [split; vm_compute; reflexivity|].
  split; [vm_compute; reflexivity|]. split; [vm_compute; reflexivity|]. split; [vm_compute; reflexivity|].
  split; [apply nonneg_tablesb_ok; vm_compute; reflexivity|].
  split; [apply (stochastic_tablesb_ok _ _ (dreached_inv _ party_reached) party_tidy); vm_compute; reflexivity|].
  split; [exact party_order|]. split; vm_compute; reflexivity.
Qed.

Example C34_several_example : let w1 := fst (prepare meet ["a"; "b"] []) in
  dreached meet /\ dtidy meet /\ NoDup ["a"; "b"] /\ (forall v, In v ["a"; "b"] -> optimisable meet [] v) /\
  (forall v i n, In v ["a"; "b"] -> dholds meet v i n -> nporder n = []) /\ nonneg_bn (dbn w1) /\
  (forall v i n d, In v ["a"; "b"] -> dholds meet v i n -> In d (nvalues n) -> plan_sum w1 [(v, d)] (fun _ => 1%Qc) <> 0%Qc).
Proof.
  cbv zeta. split; [exact meet_reached|]. split; [exact meet_tidy|]. split; [repeat constructor; cbn; intuition discriminate|].
  assert (HH : forall v i n, In v ["a"; "b"] -> dholds meet v i n -> (v = "a" /\ i = 0 \/ v = "b" /\ i = 1) /\ nvalues n = ["0"; "1"] /\ nporder n = []).
  { intros v i n [<-|[<-|[]]] [D H]; vm_compute in D; injection D as <-; vm_compute in H; injection H as <-; split; auto. }
  split; [|split; [|split]].
  - intros v [<-|[<-|[]]].
    + exists 0, (deref (dheap meet) 0). split; [split; vm_compute; reflexivity|]. split; [vm_compute; reflexivity|]. intros d X. discriminate X.
    + exists 1, (deref (dheap meet) 1). split; [split; vm_compute; reflexivity|]. split; [vm_compute; reflexivity|]. intros d X. discriminate X.
  - intros v i n Hv H. apply (HH v i n Hv H).
  - apply nonnegb_ok. vm_compute. reflexivity.
  - intros v i n d Hv H Hd. destruct (HH v i n Hv H) as (C & E & _). rewrite E in Hd.
    destruct C as [[-> _]|[-> _]]; destruct Hd as [<-|[<-|[]]]; intros X; apply (f_equal this) in X; vm_compute in X; discriminate.
Qed.

(** Two decisions: the result is worse than another plan. *)
Theorem C34_two_decisions_refuted : exists (SO : SetOrder) (BO : BagOrder) w sol ds, dreached w /\ dtidy w /\
  (forall v i n, dholds w v i n -> nkind n = KDecision -> nporder n = []) /\
  all_decided w sol /\ all_decided w ds /\
  snd (optimal_decisions w ["a"; "b"] []) = Ok sol /\
  (exists x y, snd (expected_utility w sol) = Ok (scalar x) /\ snd (expected_utility w ds) = Ok (scalar y) /\ (x < y)%Qc).
Proof.
  exists listing_order, forwards, meet, [("a", "1"); ("b", "0")], [("a", "0"); ("b", "0")]. split; [exact meet_reached|]. split; [exact meet_tidy|].
  assert (KD : forall v i n, dholds meet v i n -> nkind n = KDecision -> In v ["a"; "b"] /\ nporder n = []).
  { intros v i n [D H] K. apply dget_In in D. vm_compute in D. destruct D as [D|[D|[D|[]]]]; injection D as <- <-; vm_compute in H; injection H as <-.
    - split; [left; reflexivity|reflexivity].
    - split; [right; left; reflexivity|reflexivity].
    - discriminate K. }
  split; [intros v i n H K; apply (KD v i n H K)|].
  split; [split; [apply legal_decisionsb_ok; vm_compute; reflexivity|intros v i n H K; apply (KD v i n H K)]|].
  split; [split; [apply legal_decisionsb_ok; vm_compute; reflexivity|intros v i n H K; apply (KD v i n H K)]|].
  split; [vm_compute; reflexivity|].
  assert (EU : forall ds, legal_decisions meet ds -> nonneg_tables (open_nodes meet ds) -> plan_sum meet ds (fun _ => 1%Qc) <> 0%Qc ->
    snd (@expected_utility listing_order forwards meet ds) = Ok (scalar (plan_value meet ds))).
  { intros ds L NN NZ. destruct (C33_expected_utility listing_order forwards meet ds meet_reached meet_tidy) as (w' & -> & _); [vm_compute; discriminate|assumption..|reflexivity]. }
  do 2 eexists. split; [apply EU|split; [apply EU|]].
  1, 4: apply legal_decisionsb_ok; vm_compute; reflexivity.
  1, 3: apply nonneg_tablesb_ok; vm_compute; reflexivity.
  1, 2: intros X; apply (f_equal this) in X; vm_compute in X; discriminate.
  vm_compute. reflexivity.
Qed.

(** A decision with an observed parent (both with at least two values) cannot be
    optimised: an array of several numbers is compared in an [if]. *)
Theorem C34_informed_partial (SO : SetOrder) (BO : BagOrder) w v i n q : dreached w -> dtidy w -> nonneg_bn (dbn w) ->
  plan_sum w [] (fun _ => 1%Qc) <> 0%Qc -> dholds w v i n -> nkind n = KDecision -> 2 <= length (nvalues n) -> In q (nporder n) ->
  2 <= length (dvals w q) -> optimize_locally w v = Err ValueError.
Proof. intros R. exact (local_informed w v i n q (dreached_inv w R)). Qed.

Example C34_informed_example : let n := deref (dheap seen) 1 in
  dreached seen /\ dtidy seen /\ nonneg_bn (dbn seen) /\ plan_sum seen [] (fun _ => 1%Qc) <> 0%Qc /\ dholds seen "coat" 1 n /\
  nkind n = KDecision /\ 2 <= length (nvalues n) /\ In "weather" (nporder n) /\ 2 <= length (dvals seen "weather") /\
  snd (@optimal_decisions listing_order forwards seen ["coat"] []) = Err ValueError.
Proof.
  cbv zeta. split; [exact seen_reached|]. split; [exact seen_tidy|]. split; [apply nonnegb_ok; vm_compute; reflexivity|].
  split; [intros X; apply (f_equal this) in X; vm_compute in X; discriminate|]. split; [split; vm_compute; reflexivity|].
  split; [vm_compute; reflexivity|]. split; [vm_compute; auto|]. split; [vm_compute; auto|]. split; [vm_compute; auto|]. vm_compute; reflexivity.
Qed.

(** ** C35.  Fixed decisions only fix the rule other decisions are optimised
    against; a fixed decision that is also in [order] is optimised again, and the
    result does not depend on the value it was fixed to. *)
Theorem C35_fixed_value_ignored_partial (SO : SetOrder) (BO : BagOrder) w v i n fixed fixed' order : dreached w -> dtidy w -> dholds w v i n ->
  nkind n = KDecision -> nporder n = [] ->
  (forall d, dget v fixed = Some d -> In d (nvalues n)) -> (forall d, dget v fixed' = Some d -> In d (nvalues n)) ->
  nonneg_tables (open_nodes w [(v, "")]) -> stochastic_tables (open_nodes w [(v, "")]) -> topological (dbn w) order ->
  snd (optimal_decisions w [v] fixed) = snd (optimal_decisions w [v] fixed').
Proof.
  intros R T H K P F1 F2 NN ST TO. assert (I := dreached_inv w R).
  destruct (optimal_single w v i n fixed order I T H K P F1 NN ST TO) as (w1 & d & -> & FB).
  destruct (optimal_single w v i n fixed' order I T H K P F2 NN ST TO) as (w2 & d' & -> & FB'). cbn [snd]. f_equal. f_equal. f_equal.
  exact (first_best_unique _ _ d d' FB FB').
Qed.

Example C35_example : dreached party /\ dtidy party /\
  snd (@optimal_decisions listing_order forwards party ["place"] [("place", "out")]) = Ok [("place", "in")] /\
  snd (@optimal_decisions listing_order forwards party ["place"] [("place", "in")]) = Ok [("place", "in")].
Proof. split; [exact party_reached|]. split; [exact party_tidy|]. split; vm_compute; reflexivity. Qed.

Theorem C35_fixed_refuted : exists (SO : SetOrder) (BO : BagOrder) w sol, dreached w /\ dtidy w /\ legal_decisions w [("place", "out")] /\
  snd (optimal_decisions w ["place"] [("place", "out")]) = Ok sol /\ dget "place" sol = Some "in".
Proof.
  exists listing_order, forwards, party, [("place", "in")]. split; [exact party_reached|]. split; [exact party_tidy|].
  split; [apply party_legal; right; left; reflexivity|]. split; vm_compute; reflexivity.
Qed.

(** ** C36 *)
Theorem C36_set_decision w v i n d : dreached w -> dholds w v i n -> nkind n = KDecision -> In d (nvalues n) ->
  exists n', dexec w (DDecide i d) = (mkDW (list_set i n' (dheap w)) (dlook w), Ok tt) /\
    let w' := mkDW (list_set i n' (dheap w)) (dlook w) in dholds w' v i n' /\ NetFacts.face n' = NetFacts.face n /\ nporder n' = nporder n /\
    forall st, dlegal w n st -> entry (snapshot_node (dheap w') n') st = if String.eqb (look st v) d then 1%Qc else 0%Qc.
Proof. exact (decide_rule w v i n d). Qed.

Theorem C36_fully_mixed w v i n : dreached w -> dholds w v i n -> nkind n = KDecision -> nvalues n <> [] ->
  exists n', dexec w (DMixed i) = (mkDW (list_set i n' (dheap w)) (dlook w), Ok tt) /\
    let w' := mkDW (list_set i n' (dheap w)) (dlook w) in dholds w' v i n' /\ NetFacts.face n' = NetFacts.face n /\ nporder n' = nporder n /\
    forall st, dlegal w n st -> entry (snapshot_node (dheap w') n') st = (/ qnat (length (nvalues n)))%Qc.
Proof. exact (mixed_rule w v i n). Qed.

(** An unknown decision raises ValueError, after the rule has been set to zero. *)
Theorem C36_unknown_partial w v i n d : dreached w -> dholds w v i n -> nkind n = KDecision -> nvalues n <> [] -> ~ In d (nvalues n) ->
  exists n', dexec w (DDecide i d) = (mkDW (list_set i n' (dheap w)) (dlook w), Err ValueError) /\
    let w' := mkDW (list_set i n' (dheap w)) (dlook w) in dholds w' v i n' /\
    forall st, entry (snapshot_node (dheap w') n') st = 0%Qc.
Proof. exact (unknown_zeroes w v i n d). Qed.

Theorem C36_unknown_refuted : exists w i d st, dreached w /\ snd (dexec w (DDecide i d)) = Err ValueError /\
  entry (snapshot_node (dheap w) (deref (dheap w) i)) st <> 0%Qc /\
  entry (snapshot_node (dheap (fst (dexec w (DDecide i d)))) (deref (dheap (fst (dexec w (DDecide i d)))) i)) st = 0%Qc.
Proof.
  exists seen, 1, "moon", [("coat", "t"); ("weather", "rain")]. split; [exact seen_reached|]. split; [vm_compute; reflexivity|].
  split; [intros X; apply (f_equal this) in X; vm_compute in X; discriminate|qc].
Qed.

Example C36_example : let n := deref (dheap seen) 1 in
  dreached seen /\ dholds seen "coat" 1 n /\ nkind n = KDecision /\ nporder n = ["weather"] /\ In "f" (nvalues n) /\ ~ In "moon" (nvalues n) /\
  dlegal seen n [("coat", "t"); ("weather", "rain")].
Proof.
  cbv zeta. split; [exact seen_reached|]. split; [split; vm_compute; reflexivity|]. split; [vm_compute; reflexivity|]. split; [vm_compute; reflexivity|].
  split; [vm_compute; auto|]. split; [vm_compute; intuition discriminate|]. split; [intros _; vm_compute; auto|].
  intros q Hq. vm_compute in Hq. destruct Hq as [<-|[]]. vm_compute. auto.
Qed.

(** ** C07 for utility nodes.  [get_utility] reports what the factor contains.  A
    parentless utility node is excluded unless its table has been set. *)
Theorem C07_utility_factor_partial w v i n : dreached w -> dholds w v i n -> nkind n = KUtility ->
  exists f, utility_factor (dheap w) n = Ok f /\ vorder f = nporder n /\
    forall st, dlegal w n st -> (forall q, In q (nporder n) -> In q (dkeys st)) -> (nporder n <> [] \/ exists int a, ncpd n = TArr int a) ->
      get_utility (dheap w) n st = Ok (potential_at f st).
Proof. exact (utility_factor_reports w v i n). Qed.

Theorem C07_joint_factor w v i n : dreached w -> dtidy w -> dholds w v i n ->
  exists p u, joint_factor (dheap w) n = Ok (p, u) /\ vorder p = vorder u /\
    (nkind n = KUtility -> utility_factor (dheap w) n = Ok u /\ Forall (fun x => x = 1%Qc) (data (pot p))) /\
    (nkind n <> KUtility -> node_factor (dheap w) n = Ok p /\ p = from_node (snapshot_node (dheap w) n) /\ Forall (fun x => x = 0%Qc) (data (pot u))).
Proof. exact (joint_factor_pairs w v i n). Qed.

(** A fresh utility node: the factor exists, [get_utility] raises TypeError. *)
Theorem C07_fresh_utility_refuted : exists w i n f, dreached w /\ dholds w "u" i n /\ nkind n = KUtility /\ nporder n = [] /\
  utility_factor (dheap w) n = Ok f /\ get_utility (dheap w) n [] = Err TypeError.
Proof.
  exists (drun dstart [DNew KUtility "u" []; DAdd 0]), 0. do 2 eexists.
  split; [apply dreached_run; [apply dreached_start|vm_compute; reflexivity]|]. split; [split; vm_compute; reflexivity|]. repeat split.
Qed.

Example C07_utility_example : let n := deref (dheap party) 3 in let st := [("weather", "rain"); ("fun", "f")] in
  dreached party /\ dtidy party /\ dholds party "joy" 3 n /\ nkind n = KUtility /\ nporder n = ["fun"; "weather"] /\ dlegal party n st /\
  (forall q, In q (nporder n) -> In q (dkeys st)) /\ get_utility (dheap party) n st = Ok (qq (-5) 1).
Proof.
  cbv zeta. split; [exact party_reached|]. split; [exact party_tidy|]. split; [split; vm_compute; reflexivity|]. split; [vm_compute; reflexivity|].
  split; [vm_compute; reflexivity|]. split.
  { split; [intros K; exfalso; apply K; vm_compute; reflexivity|]. intros q Hq. vm_compute in Hq. destruct Hq as [<-|[<-|[]]]; vm_compute; auto. }
  split; [intros q Hq; vm_compute in Hq; destruct Hq as [<-|[<-|[]]]; vm_compute; auto|]. vm_compute. reflexivity.
Qed.

(** ** C26 for utility nodes *)
Theorem C26_set_utility_partial w v i n u pv a : dreached w -> dholds w v i n -> nkind n = KUtility -> ncpd n = TArr false a ->
  (forall q y, In q (nporder n) -> dget q pv = Some y -> In y (dvals w q)) ->
  exists n', dexec w (DUtility i u pv) = (mkDW (list_set i n' (dheap w)) (dlook w), Ok tt) /\
    let w' := mkDW (list_set i n' (dheap w)) (dlook w) in dholds w' v i n' /\
    forall st, dlegal w n st -> (forall q, In q (nporder n) -> In q (dkeys st)) ->
      utility (snapshot_node (dheap w') n') st = (if matches pv st (nporder n) then u else utility (snapshot_node (dheap w) n) st) /\
      get_utility (dheap w') n' st = Ok (utility (snapshot_node (dheap w') n') st).
Proof. exact (write_utility w v i n u pv a). Qed.

Theorem C26_unknown_utility w v i n u pv q y : dreached w -> dholds w v i n -> nkind n = KUtility -> In q (nporder n) ->
  dget q pv = Some y -> ~ In y (dvals w q) -> dexec w (DUtility i u pv) = (w, Err ValueError).
Proof. exact (write_utility_unknown w v i n u pv q y). Qed.

Example C26_utility_example : let n := deref (dheap party) 3 in let pv := [("weather", "rain")] in
  dreached party /\ dholds party "joy" 3 n /\ nkind n = KUtility /\ (exists a, ncpd n = TArr false a) /\
  (forall q y, In q (nporder n) -> dget q pv = Some y -> In y (dvals party q)) /\
  ~ In "snow" (dvals party "weather") /\
  matches pv [("weather", "rain"); ("fun", "f")] (nporder n) = true /\ matches pv [("weather", "sun"); ("fun", "f")] (nporder n) = false.
Proof.
  cbv zeta. split; [exact party_reached|]. split; [split; vm_compute; reflexivity|]. split; [vm_compute; reflexivity|].
  split; [eexists; vm_compute; reflexivity|]. split; [|split; [vm_compute; intuition discriminate|split; vm_compute; reflexivity]].
  intros q y Hq D. vm_compute in Hq. destruct Hq as [<-|[<-|[]]]; vm_compute in D; [discriminate D|injection D as <-; vm_compute; auto].
Qed.

Print Assumptions C33_expected_utility.
Print Assumptions C33_all_decided.
Print Assumptions C33_normalised.
Print Assumptions C34_optimal_partial.
Print Assumptions C34_several_partial.
Print Assumptions C34_two_decisions_refuted.
Print Assumptions C34_informed_partial.
Print Assumptions C35_fixed_value_ignored_partial.
Print Assumptions C35_fixed_refuted.
Print Assumptions C36_set_decision.
Print Assumptions C36_fully_mixed.
Print Assumptions C36_unknown_partial.
Print Assumptions C36_unknown_refuted.
Print Assumptions C07_utility_factor_partial.
Print Assumptions C07_joint_factor.
Print Assumptions C07_fresh_utility_refuted.
Print Assumptions C26_set_utility_partial.
Print Assumptions C26_unknown_utility.
