(** C79: expected utilities and decisions in rounded arithmetic. *)
From Verif Require Import Base BaseFacts NDArray Factor Exact Spec SpecFacts Node Network NetSpec NetView NetTable MCSpec MCChecks Checks Decision DecSpec DecInv DecView DecFacts
  DecOpt DecTable DecChecks Instances ExampleNets PropDecision
  Rounded RoundedSpec RoundedProof RoundedTree RoundedDouble RoundedSign RoundedDec RoundedDecSpec RoundedDecPure RoundedDecProof RoundedDecTop PropRounded.
From Coq Require Import Field.

(** With the exact operations the programs are those of Decision.v. *)
Theorem C79_same_program {SO : SetOrder} {BO : BagOrder} :
  (forall w ds, expected_utility_by fmul fadd marginalize1 finvert w ds = expected_utility w ds) /\
  (forall w order fixed, optimal_decisions_by fmul fadd marginalize1 finvert fully_mixed w order fixed = optimal_decisions w order fixed).
Proof. exact dec_by_exact. Qed.

Section C79.
Context {RD : Rounding} {SY : Symmetric RD} {AD : Adding} {SO : SetOrder} {BO : BagOrder}.

(** The computed expected utility is off by at most (1 + ulp)^K - 1 times the expected
    size of the utilities; the state of the network is that of the exact program. *)
Theorem C79_expected_utility w ds : dreached w -> dtidy w -> dlook w <> [] -> legal_decisions w ds ->
  nonneg_tables (open_nodes w ds) -> plan_sum w ds (fun _ => 1%Qc) <> 0%Qc ->
  exists w' y, rexpected_utility w ds = (w', Ok (scalar y)) /\ w' = fst (expected_utility w ds) /\
    (magnitude (plan_value w ds) <= plan_scale w ds)%Qc /\
    (magnitude (y - plan_value w ds) <= relative (utility_errors w) * plan_scale w ds)%Qc.
Proof.
  intros R T NL L NN NZ. assert (I := dreached_inv w R).
  destruct (rexpected_utility_ok w ds I T NL L NN NZ) as (w' & y & E & _ & _ & A & B). exists w', y. split; [exact E|]. split; [|split; assumption].
  unfold rexpected_utility, expected_utility_by in E. unfold expected_utility. destruct (decide_all w ds) as (w2 & [u|e]); cbn [fst]; congruence.
Qed.

(** Utilities that are not negative: the relative error is at most (1 + ulp)^K - 1. *)
Theorem C79_nonneg w ds : dreached w -> dtidy w -> dlook w <> [] -> legal_decisions w ds ->
  nonneg_tables (open_nodes w ds) -> nonneg_tables (dutils w) -> plan_sum w ds (fun _ => 1%Qc) <> 0%Qc ->
  exists w' y, rexpected_utility w ds = (w', Ok (scalar y)) /\
    (magnitude (y - plan_value w ds) <= relative (utility_errors w) * plan_value w ds)%Qc.
Proof.
  intros R T NL L NN NU NZ. destruct (C79_expected_utility w ds R T NL L NN NZ) as (w' & y & E & _ & _ & B). exists w', y. split; [exact E|].
  replace (plan_scale w ds) with (plan_value w ds) in B; [exact B|]. unfold plan_value, plan_scale. f_equal. unfold plan_sum. apply qsum_map_ext. intros s _. f_equal.
  unfold utilities, utility_sizes. apply qsum_map_ext. intros u Hu. symmetry. apply mag_pos. unfold utility, aget. apply nth_Forall_nonneg, NU, Hu.
Qed.

(** One decision to optimise: no value is better by more than the errors. *)
Theorem C79_optimal w v i n fixed order : dreached w -> dtidy w -> dholds w v i n -> nkind n = KDecision -> nporder n = [] ->
  (forall d, dget v fixed = Some d -> In d (nvalues n)) ->
  nonneg_tables (open_nodes w [(v, "")]) -> stochastic_tables (open_nodes w [(v, "")]) -> topological (dbn w) order ->
  exists w1 d, roptimal_decisions w [v] fixed = (w1, Ok [(v, d)]) /\ near_best w v (nvalues n) d.
Proof. intros R. exact (roptimal_single w v i n fixed order (dreached_inv w R)). Qed.

(** A decision that is better than the others by more than the errors is found. *)
Theorem C79_clear w v i n fixed order d : dreached w -> dtidy w -> dholds w v i n -> nkind n = KDecision -> nporder n = [] ->
  (forall d, dget v fixed = Some d -> In d (nvalues n)) ->
  nonneg_tables (open_nodes w [(v, "")]) -> stochastic_tables (open_nodes w [(v, "")]) -> topological (dbn w) order ->
  In d (nvalues n) -> (forall x, In x (nvalues n) -> x <> d -> (plan_value w [(v, x)] + regret w v d x < plan_value w [(v, d)])%Qc) ->
  exists w1, roptimal_decisions w [v] fixed = (w1, Ok [(v, d)]) /\ snd (optimal_decisions w [v] fixed) = Ok [(v, d)].
Proof.
  intros R T H K P FX NN ST TO Id C. assert (I := dreached_inv w R).
  destruct (roptimal_single w v i n fixed order I T H K P FX NN ST TO) as (w1 & y & E & Iy & B). exists w1. rewrite E.
  destruct (string_dec y d) as [->|N].
  2: { exfalso. specialize (B d Id). specialize (C y Iy N). apply (Qclt_not_le _ _ C). unfold regret in *. rewrite (Qcplus_comm (plan_scale w [(v, y)])) in B. exact B. }
  split; [reflexivity|]. destruct (optimal_single w v i n fixed order I T H K P FX NN ST TO) as (w2 & z & -> & FB). cbn [snd].
  destruct FB as (pre & post & El & _ & FB). assert (Iz : In z (nvalues n)) by (rewrite El; apply in_or_app; right; left; reflexivity).
  destruct (string_dec z d) as [->|N]; [reflexivity|]. exfalso. specialize (C z Iz N). specialize (FB d Id). cbn beta in FB.
  apply (Qclt_not_le _ _ C). eapply Qcle_trans; [exact FB|]. rewrite <- (Qcplus_0_r (plan_value w [(v, z)])) at 1. apply Qcplus_le_compat; [apply Qcle_refl|].
  unfold regret. apply Qcmult_nonneg; [apply rel_nonneg|].
  assert (SN : forall x, In x (nvalues n) -> (0 <= plan_scale w [(v, x)])%Qc).
  { intros x Hx. assert (L : legal_decisions w [(v, x)]).
    { split; [constructor; [intros []|constructor]|]. intros u q [X|[]]. injection X as <- <-. exists i, n. auto. }
    destruct (C79_expected_utility w [(v, x)] R T) as (_ & _ & _ & _ & S & _); [|exact L|exact NN| |].
    - intros Z. destruct H as [D _]. rewrite Z in D. discriminate.
    - rewrite (plan_one w [(v, x)] order I T L ST TO). discriminate.
    - eapply Qcle_trans; [apply mag_nonneg|exact S]. }
  rewrite <- (Qcplus_0_r 0). apply Qcplus_le_compat; apply SN; assumption.
Qed.

(** Several decisions: each is nearly the best alone, in the network in which the tables
    of all decisions in [order] hold the rounded 1/n or the fixed decision. *)
Theorem C79_prepared w order fixed : dreached w -> dtidy w -> NoDup order -> (forall v, In v order -> optimisable w fixed v) ->
  exists w1, rprepare w order fixed = (w1, Ok tt) /\ dlook w1 = dlook w /\
    forall v i n, dholds w v i n -> exists n', dholds w1 v i n' /\ rready fixed order v n n'.
Proof. intros R T ND Q. destruct (rprepare_ok fixed order w (dreached_inv w R) T ND Q) as (w1 & A & _ & B & C). exists w1. auto. Qed.

Theorem C79_several w order fixed w1 : dreached w -> dtidy w -> NoDup order -> (forall v, In v order -> optimisable w fixed v) ->
  (forall v i n, In v order -> dholds w v i n -> nporder n = []) ->
  w1 = fst (rprepare w order fixed) -> nonneg_bn (dbn w1) ->
  (forall v i n d, In v order -> dholds w v i n -> In d (nvalues n) -> plan_sum w1 [(v, d)] (fun _ => 1%Qc) <> 0%Qc) ->
  exists sol, roptimal_decisions w order fixed = (w1, Ok sol) /\ (forall v, In v (dkeys sol) <-> In v order) /\
    forall v i n, In v order -> dholds w v i n -> exists d, dget v sol = Some d /\ near_best w1 v (nvalues n) d.
Proof. intros R. exact (roptimal_local w order fixed w1 (dreached_inv w R)). Qed.
End C79.

(** IEEE 754 doubles (without bounds on the exponent) treat the signs alike. *)
Theorem C79_double_symmetric : Symmetric double.
Proof. intros x. apply (round_bits_opp 53 p53). Qed.

(** ** Examples *)
Example C79_example : let n := deref (dheap party) 1 in
  Symmetric double /\ dreached party /\ dtidy party /\ dlook party <> [] /\ legal_decisions party [("place", "out")] /\
  nonneg_tables (open_nodes party [("place", "out")]) /\ plan_sum party [("place", "out")] (fun _ => 1%Qc) <> 0%Qc /\
  dholds party "place" 1 n /\ nkind n = KDecision /\ nporder n = [] /\ nvalues n = ["in"; "out"] /\
  nonneg_tables (open_nodes party [("place", "")]) /\ stochastic_tables (open_nodes party [("place", "")]) /\
  topological (dbn party) ["place"; "weather"; "fun"] /\
  utility_errors party = 74 /\ plan_value party [("place", "out")] = qq 154 10 /\ plan_scale party [("place", "out")] = qq 268 10 /\
  snd (@roptimal_decisions double pairwise listing_order forwards party ["place"] []) = Ok [("place", "in")] /\
  (plan_value party [("place", "out")] + @regret double party "place" "in" "out" < plan_value party [("place", "in")])%Qc /\
  exists y, snd (@rexpected_utility double pairwise listing_order forwards party [("place", "out")]) = Ok (scalar y) /\ y <> plan_value party [("place", "out")].
Proof.
  cbv zeta. split; [exact C79_double_symmetric|]. split; [exact party_reached|]. split; [exact party_tidy|]. split; [vm_compute; discriminate|]. split; [apply party_legal; right; left; reflexivity|].
  split; [apply nonneg_tablesb_ok; vm_compute; reflexivity|]. split; [intros H; apply (f_equal this) in H; vm_compute in H; discriminate|].
  split; [split; vm_compute; reflexivity|].
  split; [vm_compute; reflexivity|]. split; [vm_compute; reflexivity|]. split; [vm_compute; reflexivity|].
  split; [apply nonneg_tablesb_ok; vm_compute; reflexivity|].
  split; [apply (stochastic_tablesb_ok _ _ (dreached_inv _ party_reached) party_tidy); vm_compute; reflexivity|].
  split; [exact party_order|]. split; [vm_compute; reflexivity|]. split; [qc|]. split; [qc|].
  split; [vm_compute; reflexivity|]. split; [vm_compute; reflexivity|].
  eexists. split; [vm_compute; reflexivity|]. intros H. apply (f_equal this) in H. vm_compute in H. discriminate.
Qed.

(** A party that costs nothing. *)
Definition gift_ops : list dop :=
  [DNew KDiscrete "rain" ["t"; "f"]; DNew KDecision "place" ["in"; "out"]; DNew KUtility "joy" []; DAdd 0; DAdd 1; DAdd 2;
   DEdge "rain" "joy"; DEdge "place" "joy"; DCpd 0 false (mkArr [2] [qq 1 10; qq 9 10]);
   DUtilities 2 false (mkArr [2; 2] [qq 1 1; qq 2 1; qq 3 1; qq 7 1])].
Definition gift : dworld := drun dstart gift_ops.
Example C79_nonneg_example : dreached gift /\ dtidy gift /\ dlook gift <> [] /\ legal_decisions gift [("place", "out")] /\
  nonneg_tables (open_nodes gift [("place", "out")]) /\ nonneg_tables (dutils gift) /\ plan_sum gift [("place", "out")] (fun _ => 1%Qc) <> 0%Qc /\
  plan_value gift [("place", "out")] = qq 65 10.
Proof.
  split; [apply dreached_run; [apply dreached_start|vm_compute; reflexivity]|]. split; [apply dtidyb_ok; vm_compute; reflexivity|]. split; [vm_compute; discriminate|].
  split; [apply legal_decisionsb_ok; vm_compute; reflexivity|]. split; [apply nonneg_tablesb_ok; vm_compute; reflexivity|]. split; [apply nonneg_tablesb_ok; vm_compute; reflexivity|].
  split; [intros H; apply (f_equal this) in H; vm_compute in H; discriminate|]. qc.
Qed.

Example C79_several_example : let w1 := fst (@rprepare double meet ["a"; "b"] []) in
  dreached meet /\ dtidy meet /\ NoDup ["a"; "b"] /\ (forall v, In v ["a"; "b"] -> optimisable meet [] v) /\
  (forall v i n, In v ["a"; "b"] -> dholds meet v i n -> nporder n = []) /\ nonneg_bn (dbn w1) /\
  (forall v i n d, In v ["a"; "b"] -> dholds meet v i n -> In d (nvalues n) -> plan_sum w1 [(v, d)] (fun _ => 1%Qc) <> 0%Qc) /\
  snd (@roptimal_decisions double pairwise listing_order forwards meet ["a"; "b"] []) = Ok [("a", "1"); ("b", "0")].
Proof.
  cbv zeta. split; [exact meet_reached|]. split; [exact meet_tidy|]. split; [repeat constructor; cbn; intuition discriminate|].
  assert (HH : forall v i n, In v ["a"; "b"] -> dholds meet v i n -> (v = "a" /\ i = 0 \/ v = "b" /\ i = 1) /\ nvalues n = ["0"; "1"] /\ nporder n = []).
  { intros v i n [<-|[<-|[]]] [D H]; vm_compute in D; injection D as <-; vm_compute in H; injection H as <-; split; auto. }
  split; [|split; [|split; [|split]]].
  - intros v [<-|[<-|[]]].
    + exists 0, (deref (dheap meet) 0). split; [split; vm_compute; reflexivity|]. split; [vm_compute; reflexivity|]. intros d X. discriminate X.
    + exists 1, (deref (dheap meet) 1). split; [split; vm_compute; reflexivity|]. split; [vm_compute; reflexivity|]. intros d X. discriminate X.
  - intros v i n Hv H. apply (HH v i n Hv H).
  - apply nonnegb_ok. vm_compute. reflexivity.
  - intros v i n d Hv H Hd. destruct (HH v i n Hv H) as (C & E & _). rewrite E in Hd.
    destruct C as [[-> _]|[-> _]]; destruct Hd as [<-|[<-|[]]]; intros X; apply (f_equal this) in X; vm_compute in X; discriminate.
  - vm_compute. reflexivity.
Qed.

(** Two utilities of very different sizes: all numbers are doubles, but their sum is
    rounded, and the choice is not the best one. *)
Definition slight_ops : list dop :=
  [DNew KDecision "d" ["a"; "b"]; DNew KUtility "big" []; DNew KUtility "small" []; DAdd 0; DAdd 1; DAdd 2;
   DEdge "d" "big"; DEdge "d" "small"; DUtilities 1 false (mkArr [2] [qq 1 1; qq 1 1]);
   DUtilities 2 false (mkArr [2] [qq 0 1; qq 1 1152921504606846976])].
Definition slight : dworld := drun dstart slight_ops.

Theorem C79_best_refuted : exists w d x, dreached w /\ dtidy w /\ legal_decisions w [("d", d)] /\ legal_decisions w [("d", x)] /\
  nonneg_tables (open_nodes w [("d", "")]) /\ stochastic_tables (open_nodes w [("d", "")]) /\
  snd (@roptimal_decisions double pairwise listing_order forwards w ["d"] []) = Ok [("d", d)] /\
  snd (@optimal_decisions listing_order forwards w ["d"] []) = Ok [("d", x)] /\
  (plan_value w [("d", d)] < plan_value w [("d", x)])%Qc.
Proof.
  assert (R : dreached slight) by (apply dreached_run; [apply dreached_start|vm_compute; reflexivity]). assert (T : dtidy slight) by (apply dtidyb_ok; vm_compute; reflexivity).
  exists slight, "a", "b". split; [exact R|]. split; [exact T|].
  split; [apply legal_decisionsb_ok; vm_compute; reflexivity|]. split; [apply legal_decisionsb_ok; vm_compute; reflexivity|].
  split; [apply nonneg_tablesb_ok; vm_compute; reflexivity|]. split; [apply (stochastic_tablesb_ok _ _ (dreached_inv _ R) T); vm_compute; reflexivity|].
  split; [vm_compute; reflexivity|]. split; vm_compute; reflexivity.
Qed.

(** fully_mixed gives a table of floats that all are the rounded quotient. *)
Theorem C79_fully_mixed {RD : Rounding} n : nkind n = KDecision -> nvalues n <> [] -> exists a,
  rfully_mixed n = Ok (with_cpd n (TArr false a) (nvalid n)) /\ shape a = tshape (ncpd n) /\ length (data a) = prodn (shape a) /\
  Forall (fun x => x = rnd (/ qnat (length (nvalues n)))%Qc) (data a).
Proof.
  intros K NE. unfold rfully_mixed, fully_mixed. rewrite K. destruct (nvalues n) as [|x l] eqn:E; [congruence|]. cbn [rbind]. eexists. split; [reflexivity|].
  cbn [ncpd with_cpd tarr]. split; [reflexivity|]. split.
  - unfold amap. cbn [data shape]. rewrite map_length. apply NetInv.real_full.
  - unfold amap, np_full, tabulate. cbn [data]. apply Forall_forall. intros y Hy. rewrite map_map in Hy. apply in_map_iff in Hy as (z & <- & _). reflexivity.
Qed.
Example C79_fully_mixed_example : exists n a, nkind n = KDecision /\ length (nvalues n) = 3 /\
  @rfully_mixed double n = Ok (with_cpd n (TArr false a) (nvalid n)) /\ Forall (fun x => x <> qq 1 3) (data a) /\ shape a = [3].
Proof.
  exists (with_cpd (new_node KDecision "d" ["a"; "b"; "c"]) (TArr false (mkArr [3] [0%Qc; 0%Qc; 0%Qc])) false). eexists.
  split; [reflexivity|]. split; [reflexivity|]. split; [vm_compute; reflexivity|]. split; [|reflexivity].
  repeat constructor; intros E; apply (f_equal this) in E; vm_compute in E; discriminate.
Qed.

Print Assumptions C79_fully_mixed.
Print Assumptions C79_same_program.
Print Assumptions C79_expected_utility.
Print Assumptions C79_nonneg.
Print Assumptions C79_optimal.
Print Assumptions C79_clear.
Print Assumptions C79_prepared.
Print Assumptions C79_several.
Print Assumptions C79_double_symmetric.
Print Assumptions C79_best_refuted.
