(** Property C90: which decisions are reported, and that they do not depend on the unit of utility. *)
From Verif Require Import Base BaseFacts NDArray Factor Exact Spec Node Network NetSpec NetView NetTable MCSpec MCChecks Checks Decision DecSpec DecInv DecView DecFacts
  DecOpt DecTable DecChecks Instances ExampleNets FactorProofs PropDecision UnitSpec UnitProof.

(** Expected utilities lie between the least and the greatest utility. *)
Theorem C90_between (SO : SetOrder) (BO : BagOrder) w ds lo hi : dreached w -> dtidy w -> dlook w <> [] ->
  legal_decisions w ds -> nonneg_tables (open_nodes w ds) -> plan_sum w ds (fun _ => 1%Qc) <> 0%Qc ->
  (forall s, In s (states (bvars (dbn w))) -> agrees ds s = true -> (lo <= utilities w s)%Qc /\ (utilities w s <= hi)%Qc) ->
  exists x, snd (expected_utility w ds) = Ok (scalar x) /\ (lo <= x)%Qc /\ (x <= hi)%Qc.
Proof.
  intros R T NE L NN NZ B. destruct (expected_utility_ok w ds (dreached_inv w R) T NE L NN NZ) as (w' & E & _). exists (plan_value w ds). rewrite E.
  split; [reflexivity|]. exact (plan_between w ds lo hi NN NZ B).
Qed.

(** What get_optimal_decisions reports, for any list of decisions: the first value with the greatest
    expected utility when the other decisions of the list are fixed or evenly mixed. *)
Theorem C90_reported (SO : SetOrder) (BO : BagOrder) w order fixed : dreached w -> dtidy w -> NoDup order -> (forall v, In v order -> decidable w fixed v) ->
  nonneg_tables (filter (fun n => negb (mem (dn_name n) order)) (bnodes (dbn w))) ->
  (forall v d, In v order -> In d (values_of (dbn w) v) -> stance_sum w order fixed v d (fun _ => 1%Qc) <> 0%Qc) ->
  exists sol, snd (optimal_decisions w order fixed) = Ok sol /\ (forall v, In v (dkeys sol) <-> In v order) /\
    forall v, In v order -> exists d pre post, dget v sol = Some d /\ values_of (dbn w) v = pre ++ d :: post /\
      (forall x, In x pre -> (stance_value w order fixed v x < stance_value w order fixed v d)%Qc) /\
      (forall x, In x (values_of (dbn w) v) -> (stance_value w order fixed v x <= stance_value w order fixed v d)%Qc).
Proof.
  intros R T ND DC NN NZ. destruct (optimal_stance w order fixed (dreached_inv w R) T ND DC NN NZ) as (sol & E & K & B). exists sol.
  split; [exact E|]. split; [exact K|]. intros v Hv. destruct (B v Hv) as (d & D & pre & post & X). exists d, pre, post. split; [exact D|exact X].
Qed.

(** Another unit ([a]) and another zero ([c]) of utility. *)
Theorem C90_units (SO : SetOrder) (BO : BagOrder) a c w w' ds : dreached w -> dreached w' -> dtidy w -> revalued a c w w' -> dlook w <> [] -> dlook w' <> [] ->
  legal_decisions w ds -> nonneg_tables (open_nodes w ds) -> plan_sum w ds (fun _ => 1%Qc) <> 0%Qc ->
  exists x, snd (expected_utility w ds) = Ok (scalar x) /\ snd (expected_utility w' ds) = Ok (scalar (a * x + c)%Qc).
Proof. intros R R' T X. exact (units_expected a c w w' (dreached_inv w R) (dreached_inv w' R') T X ds). Qed.

Theorem C90_units_optimal (SO : SetOrder) (BO : BagOrder) a c w w' order fixed : dreached w -> dreached w' -> dtidy w -> revalued a c w w' -> (0 < a)%Qc ->
  NoDup order -> (forall v, In v order -> decidable w fixed v) ->
  nonneg_tables (filter (fun n => negb (mem (dn_name n) order)) (bnodes (dbn w))) ->
  (forall v d, In v order -> In d (values_of (dbn w) v) -> stance_sum w order fixed v d (fun _ => 1%Qc) <> 0%Qc) ->
  exists sol sol', snd (optimal_decisions w order fixed) = Ok sol /\ snd (optimal_decisions w' order fixed) = Ok sol' /\
    (forall v, In v (dkeys sol) <-> In v order) /\ forall v, dget v sol' = dget v sol.
Proof. intros R R' T X. exact (units_optimal a c w w' (dreached_inv w R) (dreached_inv w' R') T X order fixed). Qed.

(** No rule that mixes decisions, such as the one in the node's table, is better than the reported decision. *)
Theorem C90_no_mixture (SO : SetOrder) (BO : BagOrder) w v fixed order : dreached w -> dtidy w -> decidable w fixed v ->
  nonneg_bn (dbn w) -> stochastic_tables (bnodes (dbn w)) -> topological (dbn w) order ->
  exists d x y, snd (optimal_decisions w [v] fixed) = Ok [(v, d)] /\ snd (expected_utility w []) = Ok (scalar x) /\
    snd (expected_utility w [(v, d)]) = Ok (scalar y) /\ (x <= y)%Qc.
Proof. intros R. exact (no_mixture w v fixed order (dreached_inv w R)). Qed.

(** ** Examples: the party with other utilities. *)
Definition cents_ops : list dop :=
  [DUtilities 3 false (mkArr [2; 2] [qq 103 1; qq 93 1; qq 23 1; qq (-7) 1]); DUtilities 4 false (mkArr [2] [qq 0 1; qq (-6) 1])].
Definition cents : dworld := drun party cents_ops.
Definition dull_ops : list dop :=
  [DUtilities 3 false (mkArr [2; 2] [qq (-50) 1; qq (-45) 1; qq (-10) 1; qq 5 1]); DUtilities 4 false (mkArr [2] [qq 0 1; qq 3 1])].
Definition dull : dworld := drun party dull_ops.
Lemma cents_reached : dreached cents.
Proof. apply dreached_run; [exact party_reached|]. vm_compute. reflexivity. Qed.
Lemma dull_reached : dreached dull.
Proof. apply dreached_run; [exact party_reached|]. vm_compute. reflexivity. Qed.

Lemma revalued_ok a c w w' : bnodes (dbn w') = bnodes (dbn w) -> drules w' = drules w ->
  forallb (fun s => qeqb (utilities w' s) (a * utilities w s + c)%Qc) (states (bvars (dbn w))) = true -> revalued a c w w'.
Proof. intros A B C. constructor; [exact A|exact B|]. intros s Hs. rewrite forallb_forall in C. apply qeqb_true, C, Hs. Qed.
Lemma party_cents : revalued (qq 2 1) (qq 3 1) party cents.
Proof. apply revalued_ok; vm_compute; reflexivity. Qed.
Lemma party_dull : revalued (qq (-1) 1) 0%Qc party dull.
Proof. apply revalued_ok; vm_compute; reflexivity. Qed.

Lemma party_decidable fixed : (fixed = [] \/ fixed = [("place", "out")]) -> decidable party fixed "place".
Proof.
  intros F. exists (snapshot_node (dheap party) (deref (dheap party) 1)). split; [vm_compute; left; reflexivity|]. split; [vm_compute; reflexivity|]. split; [vm_compute; reflexivity|].
  intros d D. destruct F as [-> | ->]; [discriminate D|]. injection D as <-. vm_compute. right. left. reflexivity.
Qed.

Lemma bounds_ok w ds lo hi :
  forallb (fun s => negb (agrees ds s) || (qleb lo (utilities w s) && qleb (utilities w s) hi)) (states (bvars (dbn w))) = true ->
  forall s, In s (states (bvars (dbn w))) -> agrees ds s = true -> (lo <= utilities w s)%Qc /\ (utilities w s <= hi)%Qc.
Proof.
  intros X s Hs A. rewrite forallb_forall in X. specialize (X s Hs). rewrite A in X. cbn [negb orb] in X. apply andb_true_iff in X as [X1 X2].
  split; apply qleb_true; assumption.
Qed.
Example C90_example : dreached party /\ dtidy party /\ dlook party <> [] /\ legal_decisions party [("place", "out")] /\
  nonneg_tables (open_nodes party [("place", "out")]) /\ plan_sum party [("place", "out")] (fun _ => 1%Qc) <> 0%Qc /\
  (forall s, In s (states (bvars (dbn party))) -> agrees [("place", "out")] s = true -> (qq (-8) 1 <= utilities party s)%Qc /\ (utilities party s <= qq 47 1)%Qc) /\
  plan_value party [("place", "out")] = qq 154 10.
Proof.
  split; [exact party_reached|]. split; [exact party_tidy|]. split; [vm_compute; discriminate|]. split; [apply party_legal; right; left; reflexivity|].
  split; [apply nonneg_tablesb_ok; vm_compute; reflexivity|]. split; [intros H; apply (f_equal this) in H; vm_compute in H; discriminate|]. split; [|qc].
  apply bounds_ok. vm_compute. reflexivity.
Qed.

Example C90_units_example : dreached party /\ dreached cents /\ dtidy party /\ revalued (qq 2 1) (qq 3 1) party cents /\ (0 < qq 2 1)%Qc /\ dlook cents <> [] /\
  NoDup ["place"] /\ (forall v, In v ["place"] -> decidable party [] v) /\
  nonneg_tables (filter (fun n => negb (mem (dn_name n) ["place"])) (bnodes (dbn party))) /\
  (forall v d, In v ["place"] -> In d (values_of (dbn party) v) -> stance_sum party ["place"] [] v d (fun _ => 1%Qc) <> 0%Qc) /\
  nonneg_bn (dbn party) /\ stochastic_tables (bnodes (dbn party)) /\ topological (dbn party) ["place"; "weather"; "fun"] /\
  snd (@optimal_decisions listing_order forwards cents ["place"] []) = Ok [("place", "in")].
Proof.
  split; [exact party_reached|]. split; [exact cents_reached|]. split; [exact party_tidy|]. split; [exact party_cents|]. split; [vm_compute; reflexivity|]. split; [vm_compute; discriminate|].
  split; [apply nodup_s_spec; reflexivity|]. split; [intros v [<-|[]]; apply party_decidable; left; reflexivity|].
  split; [apply nonneg_tablesb_ok; vm_compute; reflexivity|].
  split. { intros v d [<-|[]] Hd. vm_compute in Hd. destruct Hd as [<-|[<-|[]]]; intros H; apply (f_equal this) in H; vm_compute in H; discriminate. }
  split; [apply nonnegb_ok; vm_compute; reflexivity|]. 
  split; [rewrite <- (open_all party); apply (stochastic_tablesb_ok _ _ (dreached_inv _ party_reached) party_tidy); vm_compute; reflexivity|].
  split; [exact party_order|]. vm_compute. reflexivity.
Qed.

(** Two decisions: each is compared with the other one mixed. *)
Lemma meet_decidable v : In v ["a"; "b"] -> decidable meet [] v.
Proof.
  intros [<-|[<-|[]]]; [exists (snapshot_node (dheap meet) (deref (dheap meet) 0))|exists (snapshot_node (dheap meet) (deref (dheap meet) 1))];
  (split; [vm_compute; tauto|]); (split; [vm_compute; reflexivity|]); (split; [vm_compute; reflexivity|]); intros d D; discriminate D.
Qed.
Example C90_two_example : dreached meet /\ dtidy meet /\ NoDup ["a"; "b"] /\ (forall v, In v ["a"; "b"] -> decidable meet [] v) /\
  nonneg_tables (filter (fun n => negb (mem (dn_name n) ["a"; "b"])) (bnodes (dbn meet))) /\
  (forall v d, In v ["a"; "b"] -> In d (values_of (dbn meet) v) -> stance_sum meet ["a"; "b"] [] v d (fun _ => 1%Qc) <> 0%Qc) /\
  stance_value meet ["a"; "b"] [] "a" "0" = qq (-5) 1 /\ stance_value meet ["a"; "b"] [] "a" "1" = 0%Qc /\ stance_value meet ["a"; "b"] [] "b" "0" = qq 5 1.
Proof.
  split; [exact meet_reached|]. split; [exact meet_tidy|]. split; [apply nodup_s_spec; reflexivity|]. split; [exact meet_decidable|].
  split; [apply nonneg_tablesb_ok; vm_compute; reflexivity|].
  split. { intros v d [<-|[<-|[]]] Hd; vm_compute in Hd; destruct Hd as [<-|[<-|[]]]; intros H; apply (f_equal this) in H; vm_compute in H; discriminate. }
  split; [|split]; qc.
Qed.

(** Changing the sign does change the decision. *)
Theorem C90_sign_refuted : exists (SO : SetOrder) (BO : BagOrder) a w w' sol sol', dreached w /\ dreached w' /\ dtidy w /\ revalued a 0%Qc w w' /\
  snd (optimal_decisions w ["place"] []) = Ok sol /\ snd (optimal_decisions w' ["place"] []) = Ok sol' /\ dget "place" sol <> dget "place" sol'.
Proof.
  exists listing_order, forwards, (qq (-1) 1), party, dull, [("place", "in")], [("place", "out")]. split; [exact party_reached|]. split; [exact dull_reached|].
  split; [exact party_tidy|]. split; [exact party_dull|]. split; [vm_compute; reflexivity|]. split; [vm_compute; reflexivity|]. discriminate.
Qed.

Print Assumptions C90_between.
Print Assumptions C90_reported.
Print Assumptions C90_units.
Print Assumptions C90_units_optimal.
Print Assumptions C90_no_mixture.
Print Assumptions C90_sign_refuted.
