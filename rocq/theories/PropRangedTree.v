(** C80: the range of floating-point numbers and the join tree. *)
From Verif Require Import Base BaseFacts NDArray Factor Exact Order OrderSpec Spec SpecFacts JoinTree TreeSpec Rounded RoundedSpec RoundedProof RoundedTop RoundedDouble RoundedTree RoundedTreeSpec RoundedTreeTop
  Ranged RangedSpec RangedProof RangedDouble RangedTree RangedTreeSpec RangedTreeTop RangedTreeDouble FactorProofs Checks ExampleNets Instances JTDefault PropVE PropTree PropRounded PropRoundedTree PropRanged.

(** The program is that of RoundedTree.v with other roundings. *)
Theorem C80_same_program {RD : Rounding} {AD : Adding} {SO : SetOrder} b order ev t Q :
  create_jointree_by (mul_with rnd) b order = rounded_jointree b order /\
  reset_factors_by (mul_with rnd) b t = rounded_reset b t /\
  set_evidence_by (mul_with rnd) (marg_with rnd) (invert_with rnd rnd) b ev t = rounded_evidence b ev t /\
  calculate_messages_by (mul_with rnd) (marg_with rnd) (invert_with rnd rnd) t = rounded_messages t /\
  tmarginals_by (mul_with rnd) (marg_with rnd) (invert_with rnd rnd) (normalize_with rnd) t Q = rounded_tree t Q.
Proof. split; [|split; [|split; [|split]]]; reflexivity. Qed.

(** If the range of the numbers is large enough for the tables, a tree, whatever it was used
    for before, gives the results without limits, hence as accurate as C65 says. *)
Theorem C80_tree {RD : Rounding} {LM : Limits} {IV : Inverting} {AD : Adding} {SO : SetOrder} P b0 t b ev Q :
  worked b0 t -> same_arcs b0 b -> wf_bn b -> nonneg_bn b -> ev_ok b ev -> incl (dkeys ev) (bnames b) -> tame P b ev -> NoDup Q ->
  (tree_need P b (length (tree_keys t)) Q ev <= top)%Qc ->
  limited_evidence b ev t = rounded_evidence b ev t /\
  (answers t Q -> exists t1 f, limited_evidence b ev t = (t1, Ok tt) /\ limited_tree t1 Q = (t1, Ok f) /\ rounded_tree t1 Q = (t1, Ok f) /\ reports b f Q (potential_at f) /\
    forall q, is_inst b Q q -> close (tree_errors b (length (tree_keys t)) Q ev) (posterior b ev q) (potential_at f q)).
Proof. exact (tree_limited P b0 t b ev Q). Qed.

(** A tree has no more cliques than the network has variables, so that the range can be
    checked before there is a tree. *)
Theorem C80_size {RD : Rounding} {LM : Limits} {IV : Inverting} {AD : Adding} {SO : SetOrder} P b0 t b ev Q : worked b0 t -> (1 <= P)%Qc ->
  length (tree_keys t) <= length (bnodes b0) /\ (tree_need P b (length (bnodes b0)) Q ev <= top -> tree_need P b (length (tree_keys t)) Q ev <= top)%Qc.
Proof. intros U P1. assert (L := worked_size b0 t U). split; [exact L|]. exact (need_mono P b _ _ Q ev P1 L). Qed.

(** A new tree: construction, messages and the first query. *)
Theorem C80_fresh {RD : Rounding} {LM : Limits} {IV : Inverting} {AD : Adding} {SO : SetOrder} P b order o Q :
  suits b o -> nonneg_bn b -> order_or_default b order = Ok o -> tame P b [] -> NoDup Q ->
  (forall t, rounded_jointree b order = Ok t -> tree_need P b (length (tree_keys t)) Q [] <= top)%Qc ->
  limited_jointree b order = rounded_jointree b order /\
  forall t, limited_jointree b order = Ok t -> limited_messages t = rounded_messages t /\ (answers t Q -> limited_tree t Q = rounded_tree t Q).
Proof. exact (fresh_limited P b order o Q). Qed.

(** Nothing possible is reported as impossible then. *)
Theorem C80_zeros {RD : Rounding} {LM : Limits} {IV : Inverting} {AD : Adding} {SO : SetOrder} P b0 t b ev Q :
  worked b0 t -> same_arcs b0 b -> wf_bn b -> nonneg_bn b -> ev_ok b ev -> incl (dkeys ev) (bnames b) -> tame P b ev -> NoDup Q -> answers t Q ->
  (tree_need P b (length (tree_keys t)) Q ev <= top)%Qc ->
  exists t1 f, limited_evidence b ev t = (t1, Ok tt) /\ limited_tree t1 Q = (t1, Ok f) /\
    forall q, is_inst b Q q -> (potential_at f q = 0%Qc <-> posterior b ev q = 0%Qc).
Proof.
  intros U SA WB NN EV K TM ND A H. destruct (tree_limited P b0 t b ev Q U SA WB NN EV K TM ND H) as [_ X]. destruct (X A) as (t1 & f & E1 & E2 & _ & _ & C).
  exists t1, f. split; [exact E1|]. split; [exact E2|]. intros q Hq. specialize (C q Hq). assert (PS := close_pos _ _ _ C). destruct C as (C1 & C2 & _). split; intros X0; rewrite X0 in PS.
  - destruct (Qc_dec (posterior b ev q) 0) as [[D|D]|D]; [|apply PS in D; destruct (Qc_lt_irrefl _ D)|exact D]. destruct (Qclt_not_le _ _ D C1).
  - destruct (Qc_dec (potential_at f q) 0) as [[D|D]|D]; [|apply PS in D; destruct (Qc_lt_irrefl _ D)|exact D]. destruct (Qclt_not_le _ _ D C2).
Qed.

(** Without the condition, doubles: two observations of probability 2^-515.  Variable
    elimination is right.  The tree is right about X and Y, but gives probability 0 to the
    value of A that was observed and to the other one: the reciprocal of the message is
    infinite, and replaced by 0. *)
Definition fork (x : Qc) : bn := mkBN [rare "A" x; rare "B" x;
  mkN "X" ["t"; "f"] [("A", ["t"; "f"]); ("B", ["t"; "f"])] ["A"; "B"] (mkArr [2; 2; 2] [qq 3 4; qq 1 2; qq 1 2; qq 1 2; qq 1 4; qq 1 2; qq 1 2; qq 1 2]);
  mkN "Y" ["t"; "f"] [("X", ["t"; "f"])] ["X"] (mkArr [2; 2] [qq 1 2; qq 1 4; qq 1 2; qq 3 4])] ["A"; "B"; "X"; "Y"] [("A", "X"); ("B", "X"); ("X", "Y")].
Theorem C80_reciprocal_refuted : exists b ev o t t1 f g h r, wf_bn b /\ nonneg_bn b /\ ev_ok b ev /\ incl (dkeys ev) (bnames b) /\
  order_or_default b None = Ok o /\ suits b o /\ @limited_jointree double ieee listing_order b None = Ok t /\ answers t ["A"] /\
  @limited_evidence double ieee ieee_inv pairwise listing_order b ev t = (t1, Ok tt) /\
  posterior b ev [("A", "t")] = 1%Qc /\ posterior b ev [("X", "t")] = qq 3 4 /\ posterior b ev [("Y", "t")] = qq 7 16 /\
  @limited_tree double ieee ieee_inv pairwise listing_order t1 ["A"] = (t1, Ok f) /\ data (pot f) = [0%Qc; 0%Qc] /\
  @limited_tree double ieee ieee_inv pairwise listing_order t1 ["X"] = (t1, Ok g) /\ data (pot g) = [qq 3 4; qq 1 4] /\
  @limited_tree double ieee ieee_inv pairwise listing_order t1 ["Y"] = (t1, Ok h) /\ data (pot h) = [qq 7 16; qq 9 16] /\
  @limited_naive double ieee pairwise listing_order b ["A"] ev = Ok r /\ data (pot r) = [1%Qc; 0%Qc].
Proof.
  exists (fork (p2 515)), both_t, ["A"; "B"; "X"; "Y"]. do 6 eexists. split; [apply wf_bnb_ok; vm_compute; reflexivity|]. split; [apply nonnegb_ok; vm_compute; reflexivity|].
  split; [apply ev_okb_ok; vm_compute; reflexivity|]. split; [apply inclb_ok; reflexivity|]. split; [vm_compute; reflexivity|].
  split; [apply (suitsb_ok (fork (p2 515)) _ ["A"; "B"; "X"; "Y"]); vm_compute; reflexivity|].
  split; [vm_compute; reflexivity|]. split; [exists "AXB"; split; [vm_compute; tauto|apply inclb_ok; vm_compute; reflexivity]|]. split; [vm_compute; reflexivity|].
  split; [apply Qc_is_canon; vm_compute; reflexivity|]. split; [apply Qc_is_canon; vm_compute; reflexivity|]. split; [apply Qc_is_canon; vm_compute; reflexivity|].
  split; [vm_compute; reflexivity|]. split; [qlist|]. split; [vm_compute; reflexivity|]. split; [qlist|]. split; [vm_compute; reflexivity|]. split; [qlist|]. split; [vm_compute; reflexivity|]. qlist.
Qed.

(** Not vacuous: [net] with soft and hard evidence in doubles, in a tree that was used before. *)
Definition ltree (b : bn) : jtree := match @limited_jointree double ieee listing_order b None with Ok t => t | Err _ => mkT [] [] [] false end.
Example C80_example :
  let t := fst (@limited_tree double ieee ieee_inv pairwise listing_order (ltree net) ["A"]) in
  @worked double ieee ieee_inv pairwise listing_order net t /\ same_arcs net net_read /\ wf_bn net_read /\ nonneg_bn net_read /\ ev_ok net_read ev_net /\
  incl (dkeys ev_net) (bnames net_read) /\ tame (qq 10 1) net_read ev_net /\ NoDup ["C"; "A"] /\ answers t ["C"; "A"] /\
  (@tree_need double (qq 10 1) net_read (length (tree_keys t)) ["C"; "A"] ev_net <= @top double ieee)%Qc /\
  (@tree_need double (qq 10 1) net_read (length (bnodes net)) ["C"; "A"] ev_net <= Q2Qc (inject_Z (2 ^ 90)))%Qc /\
  (0 < posterior net_read ev_net [("C", "f"); ("A", "f")])%Qc.
Proof.
  intros t. assert (E : order_or_default net None = Ok ["D"; "A"; "B"; "C"]) by (vm_compute; reflexivity).
  split; [apply K_query; apply (@K_create double ieee ieee_inv pairwise listing_order net None _ _ E net_suits net_nonneg); vm_compute; reflexivity|].
  split; [reflexivity|]. split; [apply wf_bnb_ok; vm_compute; reflexivity|]. split; [apply nonnegb_ok; vm_compute; reflexivity|].
  split; [apply ev_okb_ok; vm_compute; reflexivity|]. split; [apply inclb_ok; reflexivity|]. split.
  { split; [discriminate|]. split.
    - intros n Hn. apply amids_ok. assert (H : forallb (fun n => forallb (amidb (qq 10 1)) (data (dn_cpd n))) (bnodes net_read) = true) by (vm_compute; reflexivity). rewrite forallb_forall in H. apply H, Hn.
    - intros v q [X|[X|[]]]; inversion X; subst. apply amids_ok. vm_compute. reflexivity. }
  split; [apply nodup_s_spec; reflexivity|].
  split; [exists "ABC"; split; [vm_compute; tauto|apply inclb_ok; vm_compute; reflexivity]|].
  split; [apply qleb_true; vm_compute; reflexivity|]. split; [apply qleb_true; vm_compute; reflexivity|]. vm_compute. reflexivity.
Qed.
Example C80_fresh_example : suits net ["D"; "A"; "B"; "C"] /\ nonneg_bn net /\ order_or_default net None = Ok ["D"; "A"; "B"; "C"] /\ tame (qq 10 1) net [] /\
  (forall t, @rounded_jointree double listing_order net None = Ok t -> @tree_need double (qq 10 1) net (length (tree_keys t)) ["C"; "A"] [] <= @top double ieee)%Qc /\
  answers (ltree net) ["C"; "A"].
Proof.
  split; [exact net_suits|]. split; [exact net_nonneg|]. split; [vm_compute; reflexivity|]. split; [|split].
  - split; [discriminate|]. split; [|intros v q []].
    intros n Hn. apply amids_ok. assert (H : forallb (fun n => forallb (amidb (qq 10 1)) (data (dn_cpd n))) (bnodes net) = true) by (vm_compute; reflexivity). rewrite forallb_forall in H. apply H, Hn.
  - intros t Ht. assert (L : length (tree_keys t) = 2) by (vm_compute in Ht; inversion Ht; reflexivity). rewrite L. apply qleb_true. vm_compute. reflexivity.
  - exists "ABC". split; [vm_compute; tauto|apply inclb_ok; vm_compute; reflexivity].
Qed.

Print Assumptions C80_same_program.
Print Assumptions C80_tree.
Print Assumptions C80_size.
Print Assumptions C80_fresh.
Print Assumptions C80_zeros.
Print Assumptions C80_reciprocal_refuted.
Print Assumptions ieee_inv.
