(** C65: the join tree in rounded arithmetic. *)
From Verif Require Import Base BaseFacts NDArray Factor Exact Order OrderSpec Spec SpecFacts JoinTree TreeSpec JTDefault Rounded RoundedSpec RoundedProof RoundedTop RoundedTree RoundedTreeSpec
  RoundedTreeProof RoundedSame RoundedTreeTop RoundedDouble FactorProofs Checks ExampleNets Instances PropVE PropTree PropRounded.

(** With the exact operations the program is that of JoinTree.v. *)
Theorem C65_same_program {SO : SetOrder} :
  (forall b o, create_jointree_by fmul b o = create_jointree b o) /\
  (forall b t, reset_factors_by fmul b t = reset_factors b t) /\
  (forall b ev t, set_evidence_by fmul marginalize1 finvert b ev t = set_evidence b ev false t) /\
  (forall t, calculate_messages_by fmul marginalize1 finvert t = calculate_messages t) /\
  (forall t Q, tmarginals_by fmul marginalize1 finvert normalize t Q = tmarginals t Q).
Proof. exact tree_by_exact. Qed.

(** The rounded operations differ from the exact ones by the rounding only, and raise the same exceptions. *)
Theorem C65_same_operations {RD : Rounding} {AD : Adding} {SO : SetOrder} : (forall x, rnd x = x) ->
  (forall f g, rmul f g = fmul f g) /\ (forall f v, rmarg f v = marginalize1 f v) /\ (forall f, rinvert f = finvert f) /\
  (forall f, rnormalize f = normalize f).
Proof. intros NR. repeat split; intros; [apply rmul_same|apply rmarg_same|apply rinvert_same|apply rnormalize_same]; exact NR. Qed.

Example C65_same_operations_example : (forall x, @rnd unrounded x = x) /\ @rinvert unrounded (trivial 0%Qc) = Err FloatingPointError /\ @rinvert double (trivial 0%Qc) = Err FloatingPointError.
Proof. split; [reflexivity|]. split; vm_compute; reflexivity. Qed.

(** Whatever was done with the tree before: after [set_evidence] all answers are within a
    factor of (1 + ulp)^K of the posterior, and asking changes nothing. *)
Theorem C65_tree {RD : Rounding} {AD : Adding} {SO : SetOrder} b0 t b ev Q :
  used b0 t -> same_arcs b0 b -> wf_bn b -> nonneg_bn b -> ev_ok b ev -> incl (dkeys ev) (bnames b) -> NoDup Q -> answers t Q ->
  exists t1 f, rounded_evidence b ev t = (t1, Ok tt) /\ rounded_tree t1 Q = (t1, Ok f) /\ reports b f Q (potential_at f) /\
    forall q, is_inst b Q q -> close (tree_errors b (length (tree_keys t)) Q ev) (posterior b ev q) (potential_at f q).
Proof. exact (tree_rounded b0 t b ev Q). Qed.

(** A new tree that has not been given evidence. *)
Theorem C65_fresh {RD : Rounding} {AD : Adding} {SO : SetOrder} b order o Q :
  suits b o -> nonneg_bn b -> order_or_default b order = Ok o -> NoDup Q ->
  exists t, rounded_jointree b order = Ok t /\ (answers t Q -> exists f, snd (rounded_tree t Q) = Ok f /\ reports b f Q (potential_at f) /\
    forall q, is_inst b Q q -> close (tree_errors b (length (tree_keys t)) Q []) (posterior b [] q) (potential_at f q)).
Proof. exact (fresh_rounded b order o Q). Qed.

(** The number of cliques in the bound is at most the number of variables. *)
Theorem C65_size {RD : Rounding} {AD : Adding} {SO : SetOrder} b0 t : used b0 t -> length (tree_keys t) <= length (bnodes b0).
Proof. exact (used_size b0 t). Qed.

(** Zeros are exact. *)
Theorem C65_zeros {RD : Rounding} {AD : Adding} {SO : SetOrder} b0 t b ev Q :
  used b0 t -> same_arcs b0 b -> wf_bn b -> nonneg_bn b -> ev_ok b ev -> incl (dkeys ev) (bnames b) -> NoDup Q -> answers t Q ->
  exists t1 f, rounded_evidence b ev t = (t1, Ok tt) /\ rounded_tree t1 Q = (t1, Ok f) /\
    forall q, is_inst b Q q -> (potential_at f q = 0%Qc <-> posterior b ev q = 0%Qc).
Proof.
  intros U SA WB NN EV K ND A. destruct (tree_rounded b0 t b ev Q U SA WB NN EV K ND A) as (t1 & f & E1 & E2 & _ & C). exists t1, f. split; [exact E1|]. split; [exact E2|].
  intros q Hq. specialize (C q Hq). assert (P := close_pos _ _ _ C). destruct C as (C1 & C2 & _). split; intros Z; rewrite Z in P.
  - destruct (Qc_dec (posterior b ev q) 0) as [[D|D]|D]; [|apply P in D; destruct (Qc_lt_irrefl _ D)|exact D]. destruct (Qclt_not_le _ _ D C1).
  - destruct (Qc_dec (potential_at f q) 0) as [[D|D]|D]; [|apply P in D; destruct (Qc_lt_irrefl _ D)|exact D]. destruct (Qclt_not_le _ _ D C2).
Qed.

(** The absolute error. *)
Theorem C65_absolute {RD : Rounding} {AD : Adding} {SO : SetOrder} b0 t b ev Q :
  used b0 t -> same_arcs b0 b -> wf_bn b -> nonneg_bn b -> ev_ok b ev -> incl (dkeys ev) (bnames b) -> NoDup Q -> answers t Q ->
  (qnat (tree_errors b (length (tree_keys t)) Q ev) * ulp <= 1 / (1 + 1))%Qc ->
  exists t1 f, rounded_evidence b ev t = (t1, Ok tt) /\ rounded_tree t1 Q = (t1, Ok f) /\ forall q, is_inst b Q q ->
    (potential_at f q - posterior b ev q <= (1 + 1) * (qnat (tree_errors b (length (tree_keys t)) Q ev) * ulp))%Qc /\
    (posterior b ev q - potential_at f q <= (1 + 1) * (qnat (tree_errors b (length (tree_keys t)) Q ev) * ulp))%Qc.
Proof.
  intros U SA WB NN EV K ND A S. destruct (tree_rounded b0 t b ev Q U SA WB NN EV K ND A) as (t1 & f & E1 & E2 & _ & C). exists t1, f. split; [exact E1|]. split; [exact E2|]. intros q Hq.
  destruct (close_abs _ _ _ (C q Hq) (posterior_le_1 b WB NN ev q EV)) as [X Y]. assert (L := power_linear _ S). set (k := tree_errors b (length (tree_keys t)) Q ev) in *.
  assert (M : (power (1 + ulp) k - 1 <= (1 + 1) * (qnat k * ulp))%Qc).
  { replace ((1 + 1) * (qnat k * ulp))%Qc with (1 + (1 + 1) * (qnat k * ulp) - 1)%Qc by ring. apply Qcplus_le_compat; [exact L|apply Qcle_refl]. }
  split; eapply Qcle_trans; eassumption.
Qed.

(** The join tree and variable elimination agree up to rounding. *)
Theorem C65_agree {RD : Rounding} {AD : Adding} {SO : SetOrder} b0 t b ev Q :
  used b0 t -> same_arcs b0 b -> wf_bn b -> nonneg_bn b -> ev_ok b ev -> incl (dkeys ev) (bnames b) -> NoDup Q -> answers t Q -> incl Q (bnames b) ->
  exists t1 f g, rounded_evidence b ev t = (t1, Ok tt) /\ rounded_tree t1 Q = (t1, Ok f) /\ rounded_naive b Q ev = Ok g /\
    forall q, is_inst b Q q -> close (naive_errors b Q ev + tree_errors b (length (tree_keys t)) Q ev) (potential_at g q) (potential_at f q).
Proof.
  intros U SA WB NN EV K ND A I. destruct (tree_rounded b0 t b ev Q U SA WB NN EV K ND A) as (t1 & f & E1 & E2 & _ & C).
  destruct (naive_top b WB NN Q ev EV ND I) as (g & E3 & _ & C3). exists t1, f, g. split; [exact E1|]. split; [exact E2|]. split; [exact E3|].
  intros q Hq. eapply close_trans; [apply close_sym, C3, Hq|apply C, Hq].
Qed.

(** Doubles: with exact numbers a second call of [calculate_messages] changes nothing;
    with doubles it changes answers. *)
Definition leaf (v p : string) (x y : Qc) : dnode := double_node (mkN v tf [(p, tf)] [p] (mkArr [2; 2] [x; y; 1 - x; 1 - y]%Qc)).
Definition chain4 : bn := mkBN [double_node (mkN "A" tf [] [] (mkArr [2] [qq 1 7; qq 6 7])); leaf "B" "A" (qq 1 3) (qq 1 11); leaf "C" "B" (qq 2 13) (qq 1 9); leaf "D" "C" (qq 1 17) (qq 1 19)]
  ["A"; "B"; "C"; "D"] [("A", "B"); ("B", "C"); ("C", "D")].
Definition rtree (b : bn) : jtree := match @rounded_jointree double listing_order b None with Ok t => t | Err _ => mkT [] [] [] false end.

Theorem C65_again_refuted :
  exists b o t t1 t2 f1 f2 q,
    wf_bn b /\ nonneg_bn b /\ order_or_default b None = Ok o /\ suits b o /\ @rounded_jointree double listing_order b None = Ok t /\
    @rounded_evidence double pairwise listing_order b [] t = (t1, Ok tt) /\ @rounded_messages double pairwise listing_order t1 = (t2, Ok tt) /\
    tvalid t1 = true /\ is_inst b ["A"; "B"] q /\
    snd (@rounded_tree double pairwise listing_order t1 ["A"; "B"]) = Ok f1 /\ snd (@rounded_tree double pairwise listing_order t2 ["A"; "B"]) = Ok f2 /\
    potential_at f1 q <> potential_at f2 q.
Proof.
  exists chain4, ["A"; "B"; "C"; "D"]. do 5 eexists. exists [("A", "t"); ("B", "t")].
  split; [apply wf_bnb_ok; vm_compute; reflexivity|]. split; [apply nonnegb_ok; vm_compute; reflexivity|]. split; [vm_compute; reflexivity|].
  split; [apply (suitsb_ok chain4 _ ["A"; "B"; "C"; "D"]); vm_compute; reflexivity|].
  split; [vm_compute; reflexivity|]. split; [vm_compute; reflexivity|]. split; [vm_compute; reflexivity|]. split; [reflexivity|].
  split; [split; [apply nodup_s_spec; reflexivity|split; [reflexivity|]]; intros v x [H|[H|[]]]; injection H as <- <-; vm_compute; tauto|]. split; [vm_compute; reflexivity|]. split; [vm_compute; reflexivity|].
  intros H. apply (f_equal this) in H. vm_compute in H. discriminate.
Qed.

(** The hypotheses hold of [net], in doubles, for a tree that was used before. *)
Example C65_example :
  let t := fst (@rounded_tree double pairwise listing_order (rtree net) ["A"]) in
  @used double pairwise listing_order net t /\ same_arcs net net_read /\ wf_bn net_read /\ nonneg_bn net_read /\ ev_ok net_read ev_net /\
  incl (dkeys ev_net) (bnames net_read) /\ NoDup ["C"; "A"] /\ answers t ["C"; "A"] /\ incl ["C"; "A"] (bnames net_read) /\
  tree_errors net_read (length (tree_keys t)) ["C"; "A"] ev_net = 371 /\
  (qnat (tree_errors net_read (length (tree_keys t)) ["C"; "A"] ev_net) * @ulp double <= 1 / (1 + 1))%Qc /\
  (0 < posterior net_read ev_net [("C", "f"); ("A", "f")])%Qc.
Proof.
  intros t. assert (E : order_or_default net None = Ok ["D"; "A"; "B"; "C"]) by (vm_compute; reflexivity).
  split; [apply U_query; apply (@U_create double pairwise listing_order net None _ _ E net_suits net_nonneg); vm_compute; reflexivity|].
  split; [reflexivity|]. split; [apply wf_bnb_ok; vm_compute; reflexivity|]. split; [apply nonnegb_ok; vm_compute; reflexivity|].
  split; [apply ev_okb_ok; vm_compute; reflexivity|]. split; [apply inclb_ok; reflexivity|]. split; [apply nodup_s_spec; reflexivity|].
  split; [exists "ABC"; split; [vm_compute; tauto|apply inclb_ok; vm_compute; reflexivity]|]. split; [apply inclb_ok; reflexivity|].
  split; [vm_compute; reflexivity|]. split; [apply qleb_true; vm_compute; reflexivity|]. vm_compute. reflexivity.
Qed.

Print Assumptions C65_same_program.
Print Assumptions C65_same_operations.
Print Assumptions C65_tree.
Print Assumptions C65_fresh.
Print Assumptions C65_size.
Print Assumptions C65_zeros.
Print Assumptions C65_absolute.
Print Assumptions C65_agree.
Print Assumptions C65_again_refuted.
