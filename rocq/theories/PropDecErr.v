(** Property C77: which calls of the decision methods raise which exception. *)
From Verif Require Import Base BaseFacts NDArray Factor Exact Spec Node Network NetSpec NetFacts NetView NetTable MCSpec MCChecks Checks Decision DecSpec DecInv DecView DecFacts
  DecOpt DecTable DecChecks Instances ExampleNets PropDecision DecErrSpec DecErr DecErr2 DecErr3.

(** ** C77.  [expected_utility]: the first item of the dictionary that something is
    wrong with decides; then a network without nodes; then decisions under which
    every joint state has product zero.  The answer is [plan_value] otherwise. *)
Theorem C77_expected_utility (SO : SetOrder) (BO : BagOrder) w ds e : dreached w -> dtidy w -> NoDup (dkeys ds) -> nonneg_tables (open_nodes w ds) ->
  snd (expected_utility w ds) = Err e <->
  first_fault w (given_items ds) e \/
  (faultless w (given_items ds) /\
    ((dlook w = [] /\ e = TypeError) \/ (dlook w <> [] /\ plan_sum w ds (fun _ => 1%Qc) = 0%Qc /\ e = FloatingPointError))).
Proof.
  intros R T ND NN. destruct (utility_outcome w ds (dreached_inv w R) T ND NN) as (w1 & r & -> & _ & O). cbn [snd].
  destruct O as [(e0 & -> & FF)|(FL & [[E ->]|[(E & Z & ->)|(E & Z & ->)]])].
  - split; [intros [= <-]; left; exact FF|]. intros [F|(F & _)]; [rewrite (first_fault_fun _ _ _ _ F FF); reflexivity|].
    exfalso. exact (faultless_not _ _ _ F FF).
  - split; [intros [= <-]; right; auto|]. intros [F|(_ & [[_ ->]|(X & _)])]; [exfalso; exact (faultless_not _ _ _ FL F)|reflexivity|contradiction].
  - split; [intros [= <-]; right; auto|]. intros [F|(_ & [[X _]|(_ & _ & ->)])]; [exfalso; exact (faultless_not _ _ _ FL F)|contradiction|reflexivity].
  - split; [discriminate|]. intros [F|(_ & [[X _]|(_ & X & _)])]; [exfalso; exact (faultless_not _ _ _ FL F)|contradiction|contradiction].
Qed.

Theorem C77_utility_answer (SO : SetOrder) (BO : BagOrder) w ds x : dreached w -> dtidy w -> NoDup (dkeys ds) -> nonneg_tables (open_nodes w ds) ->
  snd (expected_utility w ds) = Ok x -> x = scalar (plan_value w ds).
Proof.
  intros R T ND NN. destruct (utility_outcome w ds (dreached_inv w R) T ND NN) as (w1 & r & -> & _ & O). cbn [snd].
  destruct O as [(e0 & -> & FF)|(FL & [[E ->]|[(E & Z & ->)|(E & Z & ->)]])]; try discriminate. intros [= <-]. reflexivity.
Qed.

(** ** C77.  [get_optimal_decisions]: the first item of the order that something is
    wrong with; then the first decision whose optimisation fails in the network as
    prepared: because a part of the network unconnected to it is impossible, or
    because it has several values and observes a variable with several values. *)
Theorem C77_optimal (SO : SetOrder) (BO : BagOrder) w order fixed e w1 : dreached w -> dtidy w ->
  (forall n, In n (bnodes (dbn w)) -> ~ In (dn_name n) order -> Forall (fun x => (0 <= x)%Qc) (data (dn_cpd n))) ->
  w1 = fst (optimal_decisions w order fixed) ->
  snd (optimal_decisions w order fixed) = Err e <->
  first_fault w (wanted_items order fixed) e \/
  (faultless w (wanted_items order fixed) /\
    exists o1 v o2, order = o1 ++ v :: o2 /\ (forall u e', In u o1 -> ~ undecided w1 u e') /\ undecided w1 v e).
Proof.
  intros R T NN ->. destruct (optimal_outcome w order fixed (dreached_inv w R) T NN) as (w1 & r & -> & _ & O). cbn [fst snd].
  destruct O as [(e0 & -> & FF)|(FL & [(e0 & -> & X)|(sol & -> & NU & _)])].
  - split; [intros [= <-]; left; exact FF|]. intros [F|(F & _)]; [rewrite (first_fault_fun _ _ _ _ F FF); reflexivity|].
    exfalso. exact (faultless_not _ _ _ F FF).
  - split; [intros [= <-]; right; auto|]. intros [F|(_ & Y)]; [exfalso; exact (faultless_not _ _ _ FL F)|].
    destruct X as (o1 & v & o2 & E & N & U), Y as (p1 & u & p2 & E' & N' & U'). rewrite E in E'. clear E NN FL. revert p1 E' N'.
    induction o1 as [|a o1 IH]; intros [|b p1] E' N'; cbn in E'; injection E' as E1 E2.
    + subst u. rewrite (undecided_fun _ _ _ _ U U'). reflexivity.
    + subst b. exfalso. exact (N' v e0 (or_introl eq_refl) U).
    + subst a. exfalso. exact (N u e (or_introl eq_refl) U').
    + exact (IH (fun x y Hx => N x y (or_intror Hx)) p1 E2 (fun x y Hx => N' x y (or_intror Hx))).
  - split; [discriminate|]. intros [F|(_ & o1 & v & o2 & E & _ & U)]; [exfalso; exact (faultless_not _ _ _ FL F)|].
    exfalso. apply (NU v e); [rewrite E; apply in_or_app; right; left; reflexivity|exact U].
Qed.

(** An answer has exactly one value, of the decision's own, for every name in the
    order. *)
Theorem C77_optimal_answer (SO : SetOrder) (BO : BagOrder) w order fixed sol : dreached w -> dtidy w ->
  (forall n, In n (bnodes (dbn w)) -> ~ In (dn_name n) order -> Forall (fun x => (0 <= x)%Qc) (data (dn_cpd n))) ->
  snd (optimal_decisions w order fixed) = Ok sol ->
  (forall v, In v (dkeys sol) <-> In v order) /\
  forall v i n, In v order -> dholds w v i n -> exists d, dget v sol = Some d /\ In d (nvalues n).
Proof.
  intros R T NN. destruct (optimal_outcome w order fixed (dreached_inv w R) T NN) as (w1 & r & -> & _ & O). cbn [snd].
  destruct O as [(e0 & -> & FF)|(FL & [(e0 & -> & X)|(s & -> & _ & A & B)])]; try discriminate. intros [= <-]. auto.
Qed.

(** Calls change at most the tables of the decisions they name, whether they raise
    or not; all names, values and parents stay. *)
Theorem C77_changes (SO : SetOrder) (BO : BagOrder) w : dreached w -> dtidy w ->
  (forall ds, NoDup (dkeys ds) -> nonneg_tables (open_nodes w ds) -> let w1 := fst (expected_utility w ds) in
     dlook w1 = dlook w /\ forall v i n, dholds w v i n -> exists n', dholds w1 v i n' /\ (~ In v (dkeys ds) -> n' = n) /\
       nkind n' = nkind n /\ nvalues n' = nvalues n /\ nporder n' = nporder n) /\
  (forall order fixed, (forall n, In n (bnodes (dbn w)) -> ~ In (dn_name n) order -> Forall (fun x => (0 <= x)%Qc) (data (dn_cpd n))) ->
     let w1 := fst (optimal_decisions w order fixed) in
     dlook w1 = dlook w /\ forall v i n, dholds w v i n -> exists n', dholds w1 v i n' /\ (~ In v order -> n' = n) /\
       nkind n' = nkind n /\ nvalues n' = nvalues n /\ nporder n' = nporder n).
Proof.
  intros R T. assert (G : forall w1 vs, same_but w w1 vs -> dlook w1 = dlook w /\ forall v i n, dholds w v i n -> exists n', dholds w1 v i n' /\
     (~ In v vs -> n' = n) /\ nkind n' = nkind n /\ nvalues n' = nvalues n /\ nporder n' = nporder n).
  { intros w1 vs SB. split; [apply (sb_look _ _ _ SB)|]. intros v i n H. destruct (sb_objs _ _ _ SB v i n H) as (n' & H' & F & P & N).
    unfold face in F. injection F as F1 F2 F3. exists n'. auto. }
  split.
  - intros ds ND NN. destruct (utility_outcome w ds (dreached_inv w R) T ND NN) as (w1 & r & -> & SB & _). exact (G w1 _ SB).
  - intros order fixed NN. destruct (optimal_outcome w order fixed (dreached_inv w R) T NN) as (w1 & r & -> & SB & _). exact (G w1 _ SB).
Qed.

(** Example: a variable without numbers, connected to nothing, beside the party. *)
Definition haunted : dworld := drun dstart (party_ops ++ [DNew KDiscrete "ghost" tf; DAdd 5]).
Lemma haunted_reached : dreached haunted.
Proof. apply dreached_run; [apply dreached_start|]. vm_compute. reflexivity. Qed.
Lemma haunted_tidy : dtidy haunted.
Proof. apply dtidyb_ok. vm_compute. reflexivity. Qed.

Lemma haunted_apart : impossible_beside (fst (@optimal_decisions listing_order forwards haunted ["place"] [])) "place".
Proof.
  exists ["ghost"]. split; [split|split].
  - intros u [<-|[]]. vm_compute. tauto.
  - intros v i n u [D H] [<-|[]] M. apply dget_In in D. vm_compute in D.
    destruct D as [D|[D|[D|[D|[D|[D|[]]]]]]]; injection D as <- <-; vm_compute in H; injection H as <-; vm_compute in M;
      try (exfalso; intuition discriminate). intros x Hx. vm_compute in Hx. exact Hx.
  - intros [X|[]]. discriminate X.
  - apply Qc_is_canon. vm_compute. reflexivity.
Qed.

Example C77_example :
  dreached haunted /\ dtidy haunted /\ nonneg_tables (open_nodes haunted []) /\
  impossible_beside (fst (@optimal_decisions listing_order forwards haunted ["place"] [])) "place" /\
  faultless haunted (wanted_items ["place"] []) /\ faultless party (given_items [("place", "out")]) /\
  first_fault party (given_items [("place", "moon"); ("joy", "t"); ("nobody", "t")]) ValueError /\
  first_fault party (given_items [("joy", "t"); ("place", "moon")]) AttributeError /\
  first_fault party (wanted_items ["place"; "nobody"] []) KeyError /\
  informed seen "coat" /\
  snd (@expected_utility listing_order forwards party [("place", "moon"); ("joy", "t")]) = Err ValueError /\
  snd (@optimal_decisions listing_order forwards party ["place"; "nobody"] []) = Err KeyError /\
  snd (@optimal_decisions listing_order forwards haunted ["place"] []) = Err FloatingPointError /\
  snd (@expected_utility listing_order forwards haunted [("place", "in")]) = Err FloatingPointError /\
  snd (@expected_utility listing_order forwards dstart []) = Err TypeError /\
  snd (@optimal_decisions listing_order forwards seen ["coat"] []) = Err ValueError.
Proof.
  split; [exact haunted_reached|]. split; [exact haunted_tidy|]. split; [apply nonneg_tablesb_ok; vm_compute; reflexivity|].
  split; [exact haunted_apart|].
  assert (PL : forall w d, (w = party \/ w = haunted) -> (forall x, d = Some x -> In x ["in"; "out"]) -> forall e, ~ fault w "place" d e).
  { intros w d Hw Hd e F. inversion F as [v x N|v x i n [D H] K|v x i n [D H] K N]; subst.
    - apply N. destruct Hw as [-> | ->]; vm_compute; tauto.
    - apply K. destruct Hw as [-> | ->]; vm_compute in D; injection D as <-; vm_compute in H; injection H as <-; reflexivity.
    - apply N. assert (X := Hd x eq_refl). destruct Hw as [-> | ->]; vm_compute in D; injection D as <-; vm_compute in H; injection H as <-; exact X. }
  assert (HJ : dholds party "joy" 3 (deref (dheap party) 3)) by (split; vm_compute; reflexivity).
  assert (HP : dholds party "place" 1 (deref (dheap party) 1)) by (split; vm_compute; reflexivity).
  split. { intros v x e [X|[]]. injection X as <- <-. apply PL; [right; reflexivity|]. intros x X. discriminate X. }
  split. { intros v x e [X|[]]. injection X as <- <-. apply PL; [left; reflexivity|]. intros x X. injection X as <-. right; left; reflexivity. }
  split. { exists [], "place", (Some "moon"), [("joy", Some "t"); ("nobody", Some "t")]. split; [reflexivity|]. split; [intros ? ? ? []|].
    apply (fault_value party "place" "moon" 1 _ HP); [vm_compute; reflexivity|]. vm_compute. intuition discriminate. }
  split. { exists [], "joy", (Some "t"), [("place", Some "moon")]. split; [reflexivity|]. split; [intros ? ? ? []|].
    apply (fault_kind party "joy" (Some "t") 3 _ HJ). vm_compute. discriminate. }
  split. { exists [("place", None)], "nobody", None, []. split; [reflexivity|]. split.
    - intros v x e [X|[]]. injection X as <- <-. apply PL; [left; reflexivity|]. intros x X. discriminate X.
    - apply fault_name. vm_compute. intuition discriminate. }
  split. { exists 1, (deref (dheap seen) 1), "weather", 0, (deref (dheap seen) 0). split; [split; vm_compute; reflexivity|].
    split; [vm_compute; lia|]. split; [vm_compute; tauto|]. split; [split; vm_compute; reflexivity|vm_compute; lia]. }
  repeat split; vm_compute; reflexivity.
Qed.

Print Assumptions C77_expected_utility.
Print Assumptions C77_utility_answer.
Print Assumptions C77_optimal.
Print Assumptions C77_optimal_answer.
Print Assumptions C77_changes.
