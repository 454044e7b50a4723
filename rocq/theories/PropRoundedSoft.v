(** C81: desired posteriors in rounded arithmetic. *)
From Verif Require Import Base BaseFacts NDArray Factor Exact Order OrderSpec Spec SpecFacts JoinTree HuginPure Hugin JTProof JTProof2 TreeSpec JTTop JTJunction JTDefault JTHistory Rounded RoundedSpec RoundedProof RoundedTop RoundedTree RoundedTreeSpec
  RoundedTreeProof RoundedSame RoundedTreeTop RoundedDouble RoundedSoft RoundedSoftSpec RoundedSoftProof RoundedSoftTop FactorProofs Checks ExampleNets Instances PropVE PropTree PropRounded PropRoundedTree.

(** With the exact operations the program is that of JoinTree.v and Factor.v. *)
Theorem C81_same_program {SO : SetOrder} :
  (forall q old, soft_ratio_by Qcdiv Qcmult q old = soft_ratio q old) /\
  (forall b ev t, set_posteriors_by fmul marginalize1 finvert normalize (soft_ratio_by Qcdiv Qcmult) b ev t = set_evidence b ev true t).
Proof. split; [exact ratio_same|exact posteriors_by_exact]. Qed.

(** The likelihoods that the evidence stands for are not unique; the posteriors are. *)
Theorem C81_meaning b ev ev1 ev2 q : wf_bn b -> nonneg_bn b -> meant b ev ev1 -> meant b ev ev2 -> posterior b ev1 q = posterior b ev2 q.
Proof. intros WB NN. exact (meant_posterior b WB NN ev ev1 ev2 q). Qed.

Section C81.
Context {RD : Rounding} {AD : Adding} {SO : SetOrder}.
Variables (b0 : bn) (t : jtree) (b : bn).
Let m := length (tree_keys t).

(** Whatever was done with the tree before: possible desired posteriors are accepted, all answers are
    within a factor of (1 + ulp)^K of the exact ones, and asking changes nothing. *)
Theorem C81_tree ev ev' Q : used_any b0 t -> same_arcs b0 b -> wf_bn b -> nonneg_bn b -> ev_ok b ev -> incl (dkeys ev) (bnames b) -> supported b ev -> meant b ev ev' -> NoDup Q -> answers t Q ->
  exists t1 f, rounded_posteriors b ev t = (t1, Ok tt) /\ rounded_tree t1 Q = (t1, Ok f) /\ reports b f Q (potential_at f) /\
    forall q, is_inst b Q q -> close (desired_errors b m Q ev) (posterior b ev' q) (potential_at f q).
Proof.
  intros U SA WB NN EV K SU M ND A. destruct (used_any_ok b0 t U) as (r & sv & J). assert (Jb : jt_ok b t r sv) by (eapply jt_ok_same; [exact (same_arcs_families _ _ SA)|reflexivity|exact J]).
  destruct (posteriors_rounded b WB NN t r sv ev Q Jb EV K SU ND A) as (ev2 & t1 & f & M2 & E1 & E2 & R & C). exists t1, f. split; [exact E1|]. split; [exact E2|]. split; [exact R|].
  intros q Hq. unfold m, tree_keys, dkeys. rewrite map_length. rewrite (meant_posterior b WB NN ev ev' ev2 q M M2). apply C, Hq.
Qed.

(** One desired posterior: the tree reports it, normalised, up to rounding. *)
Theorem C81_desired v q : used_any b0 t -> same_arcs b0 b -> wf_bn b -> nonneg_bn b -> In v (bnames b) -> length q = length (values_of b v) -> Forall (fun x => 0 <= x)%Qc q -> qsum q <> 0%Qc ->
  (forall i, nth i (prior b v) 0%Qc = 0%Qc -> nth i q 0%Qc = 0%Qc) ->
  exists t1 f, rounded_posteriors b [(v, Soft q)] t = (t1, Ok tt) /\ rounded_tree t1 [v] = (t1, Ok f) /\ reports b f [v] (potential_at f) /\
    forall i x, nth_error (values_of b v) i = Some x -> close (desired_errors b m [v] [(v, Soft q)]) (nth i q 0 / qsum q)%Qc (potential_at f [(v, x)]).
Proof.
  intros U SA WB NN Hv L N S Z. destruct (used_any_ok b0 t U) as (r & sv & J). assert (Jb : jt_ok b t r sv) by (eapply jt_ok_same; [exact (same_arcs_families _ _ SA)|reflexivity|exact J]).
  assert (EV : ev_ok b [(v, Soft q)]). { split; [cbn; constructor; [tauto|constructor]|]. intros w e [E|[]] _. inversion E; subst. split; assumption. }
  assert (SU : supported b [(v, Soft q)]).
  { intros w p [E|[]]. inversion E; subst w p. split; [|intros i _; apply Z]. clear - N S.
    induction N as [|x l Hx N IH]; [destruct (S eq_refl)|]. destruct (Qc_eq_dec x 0) as [->|D].
    - destruct IH as (i & Hi & P). { intros X. apply S. cbn [qsum]. rewrite X. ring. } exists (Datatypes.S i). split; [cbn; lia|exact P].
    - exists 0. split; [cbn; lia|]. cbn. apply Qc_nonneg_neq0_pos; assumption. }
  assert (A : answers t [v]) by (apply answers_in_clique, (name_in_clique b t r sv v Jb Hv)).
  destruct (posteriors_rounded b WB NN t r sv [(v, Soft q)] [v] Jb EV) as (ev2 & t1 & f & M2 & E1 & E2 & R & C); [intros w [<-|[]]; exact Hv|exact SU|repeat constructor; intros []|exact A|].
  exists t1, f. split; [exact E1|]. split; [exact E2|]. split; [exact R|]. intros i x Hx. assert (Ix := nth_error_In _ _ Hx).
  assert (NDv : NoDup (values_of b v)).
  { destruct (in_bnames b v Hv) as (n & Hn & <-). rewrite (values_of_node b WB n Hn). apply (wn_values _ _ (wb_nodes _ WB n Hn)). }
  assert (Hi : i = position x (values_of b v)).
  { assert (Li : i < length (values_of b v)) by (apply nth_error_Some; congruence). rewrite position_idx. rewrite <- (nth_error_nth _ _ "" Hx). symmetry. apply idx_nth; assumption. }
  rewrite Hi, <- (desired_alone b WB NN v q ev2 x Hv Ix S M2). unfold m, tree_keys, dkeys. rewrite map_length. apply C.
  split; [cbn; constructor; [intros []|constructor]|]. split; [reflexivity|]. intros w y [E|[]]. inversion E; subst. exact Ix.
Qed.

(** Zeros are exact. *)
Theorem C81_zeros ev ev' Q : used_any b0 t -> same_arcs b0 b -> wf_bn b -> nonneg_bn b -> ev_ok b ev -> incl (dkeys ev) (bnames b) -> supported b ev -> meant b ev ev' -> NoDup Q -> answers t Q ->
  exists t1 f, rounded_posteriors b ev t = (t1, Ok tt) /\ rounded_tree t1 Q = (t1, Ok f) /\
    forall q, is_inst b Q q -> (potential_at f q = 0%Qc <-> posterior b ev' q = 0%Qc).
Proof.
  intros U SA WB NN EV K SU M ND A. destruct (C81_tree ev ev' Q U SA WB NN EV K SU M ND A) as (t1 & f & E1 & E2 & _ & C). exists t1, f. split; [exact E1|]. split; [exact E2|].
  intros q Hq. specialize (C q Hq). assert (P := close_pos _ _ _ C). destruct C as (C1 & C2 & _). split; intros Z; rewrite Z in P.
  - destruct (Qc_dec (posterior b ev' q) 0) as [[D|D]|D]; [|apply P in D; destruct (Qc_lt_irrefl _ D)|exact D]. destruct (Qclt_not_le _ _ D C1).
  - destruct (Qc_dec (potential_at f q) 0) as [[D|D]|D]; [|apply P in D; destruct (Qc_lt_irrefl _ D)|exact D]. destruct (Qclt_not_le _ _ D C2).
Qed.

(** The absolute error. *)
Theorem C81_absolute ev ev' Q : used_any b0 t -> same_arcs b0 b -> wf_bn b -> nonneg_bn b -> ev_ok b ev -> incl (dkeys ev) (bnames b) -> supported b ev -> meant b ev ev' -> NoDup Q -> answers t Q ->
  (qnat (desired_errors b m Q ev) * ulp <= 1 / (1 + 1))%Qc ->
  exists t1 f, rounded_posteriors b ev t = (t1, Ok tt) /\ rounded_tree t1 Q = (t1, Ok f) /\ forall q, is_inst b Q q ->
    (potential_at f q - posterior b ev' q <= (1 + 1) * (qnat (desired_errors b m Q ev) * ulp))%Qc /\
    (posterior b ev' q - potential_at f q <= (1 + 1) * (qnat (desired_errors b m Q ev) * ulp))%Qc.
Proof.
  intros U SA WB NN EV K SU M ND A S. destruct (C81_tree ev ev' Q U SA WB NN EV K SU M ND A) as (t1 & f & E1 & E2 & _ & C). exists t1, f. split; [exact E1|]. split; [exact E2|]. intros q Hq.
  destruct (close_abs _ _ _ (C q Hq) (posterior_le_1 b WB NN ev' q (meant_ok b _ _ M EV))) as [X Y]. assert (L := power_linear _ S). set (k := desired_errors b m Q ev) in *.
  assert (MM : (power (1 + ulp) k - 1 <= (1 + 1) * (qnat k * ulp))%Qc).
  { replace ((1 + 1) * (qnat k * ulp))%Qc with (1 + (1 + 1) * (qnat k * ulp) - 1)%Qc by ring. apply Qcplus_le_compat; [exact L|apply Qcle_refl]. }
  split; eapply Qcle_trans; eassumption.
Qed.

(** Desired posteriors leave nothing behind: later evidence is treated as in a new tree (C65). *)
Theorem C81_afterwards ev Q : used_any b0 t -> same_arcs b0 b -> wf_bn b -> nonneg_bn b -> ev_ok b ev -> incl (dkeys ev) (bnames b) -> NoDup Q -> answers t Q ->
  exists t1 f, rounded_evidence b ev t = (t1, Ok tt) /\ rounded_tree t1 Q = (t1, Ok f) /\ reports b f Q (potential_at f) /\
    forall q, is_inst b Q q -> close (tree_errors b m Q ev) (posterior b ev q) (potential_at f q).
Proof.
  intros U SA WB NN EV K ND A. destruct (used_any_ok b0 t U) as (r & sv & J). assert (Jb : jt_ok b t r sv) by (eapply jt_ok_same; [exact (same_arcs_families _ _ SA)|reflexivity|exact J]).
  unfold m, tree_keys, dkeys. rewrite map_length. exact (evidence_rounded b WB NN t r sv ev Q Jb EV K ND A).
Qed.

(** The number of cliques in the bound is at most the number of variables. *)
Theorem C81_size : used_any b0 t -> m <= length (bnodes b0).
Proof. exact (used_any_size b0 t). Qed.
End C81.

(** Doubles: the desired posterior is not always hit exactly, as it is with exact numbers (C09). *)
Definition tenth : list Qc := [@rnd double (qq 1 10); @rnd double (qq 9 10)].
Theorem C81_exact_refuted :
  exists b o t t1 f v q x, wf_bn b /\ nonneg_bn b /\ order_or_default b None = Ok o /\ suits b o /\ @rounded_jointree double listing_order b None = Ok t /\
    In v (bnames b) /\ length q = length (values_of b v) /\ Forall (fun x => 0 <= x)%Qc q /\ qsum q <> 0%Qc /\ Forall (fun x => 0 < x)%Qc (prior b v) /\ nth_error (values_of b v) 0 = Some x /\
    @rounded_posteriors double pairwise listing_order b [(v, Soft q)] t = (t1, Ok tt) /\ @rounded_tree double pairwise listing_order t1 [v] = (t1, Ok f) /\
    potential_at f [(v, x)] <> nth 0 q 0%Qc /\ potential_at f [(v, x)] <> (nth 0 q 0 / qsum q)%Qc.
Proof.
  exists chain4, ["A"; "B"; "C"; "D"]. do 3 eexists. exists "B", tenth, "t".
  split; [apply wf_bnb_ok; vm_compute; reflexivity|]. split; [apply nonnegb_ok; vm_compute; reflexivity|]. split; [vm_compute; reflexivity|].
  split; [apply (suitsb_ok chain4 _ ["A"; "B"; "C"; "D"]); vm_compute; reflexivity|].
  split; [vm_compute; reflexivity|]. split; [vm_compute; tauto|]. split; [reflexivity|]. split; [repeat constructor; apply qleb_true; vm_compute; reflexivity|].
  split; [intros H; apply (f_equal this) in H; vm_compute in H; discriminate|].
  split; [assert (P : forallb (qltb 0) (prior chain4 "B") = true) by (vm_compute; reflexivity); rewrite forallb_forall in P; apply Forall_forall; intros y Hy; apply qltb_true, P, Hy|].
  split; [reflexivity|]. split; [vm_compute; reflexivity|]. split; [vm_compute; reflexivity|].
  split; intros H; apply (f_equal this) in H; vm_compute in H; discriminate.
Qed.

(** The hypotheses hold of [net], in doubles, for a tree that was used before; two desired posteriors and an observation. *)
Definition wished : evidence := [("D", Hard "t"); ("B", Soft [qq 1 2; qq 1 8; qq 3 8]); ("A", Soft tenth)].
Example C81_example :
  let t := fst (@rounded_posteriors double pairwise listing_order net [("B", Soft [qq 1 4; qq 1 4; qq 1 2])] (rtree net)) in
  @used_any double pairwise listing_order net t /\ same_arcs net net_read /\ wf_bn net_read /\ nonneg_bn net_read /\ ev_ok net_read wished /\
  incl (dkeys wished) (bnames net_read) /\ supported net_read wished /\ (exists ev', meant net_read wished ev') /\ NoDup ["C"; "A"] /\ answers t ["C"; "A"] /\
  Z.of_nat (desired_errors net_read (length (tree_keys t)) ["C"; "A"] wished) = 14421%Z /\
  (qnat (desired_errors net_read (length (tree_keys t)) ["C"; "A"] wished) * @ulp double <= 1 / (1 + 1))%Qc /\
  qsum tenth <> 0%Qc /\ (forall i, nth i (prior net_read "A") 0%Qc = 0%Qc -> nth i tenth 0%Qc = 0%Qc).
Proof.
  intros t. assert (E : order_or_default net None = Ok ["D"; "A"; "B"; "C"]) by (vm_compute; reflexivity).
  split; [apply A_posteriors; apply (@A_create double pairwise listing_order net None _ _ E net_suits net_nonneg); vm_compute; reflexivity|].
  assert (WB : wf_bn net_read) by (apply wf_bnb_ok; vm_compute; reflexivity). assert (NN : nonneg_bn net_read) by (apply nonnegb_ok; vm_compute; reflexivity).
  assert (EV : ev_ok net_read wished) by (apply ev_okb_ok; vm_compute; reflexivity). assert (K : incl (dkeys wished) (bnames net_read)) by (apply inclb_ok; reflexivity).
  assert (Z : forall v k, forallb (fun i => negb (qeqb (nth i (prior net_read v) 0%Qc) 0%Qc)) (seq 0 k) = true -> forall i, i < k -> nth i (prior net_read v) 0%Qc = 0%Qc -> False).
  { intros v k F i Hi Q. rewrite forallb_forall in F. specialize (F i (proj2 (in_seq k 0 i) ltac:(lia))). rewrite Q in F. vm_compute in F. discriminate. }
  assert (ZA : forall i, i < 2 -> nth i (prior net_read "A") 0%Qc = 0%Qc -> False) by (apply Z; vm_compute; reflexivity).
  assert (SU : supported net_read wished).
  { intros v q [X|[X|[X|[]]]]; inversion X; subst; (split; [exists 0; split; [cbn; lia|vm_compute; reflexivity]|]); intros i Hi Q; exfalso.
    - revert i Hi Q. apply Z. vm_compute. reflexivity.
    - exact (ZA i Hi Q). }
  split; [reflexivity|]. split; [exact WB|]. split; [exact NN|]. split; [exact EV|]. split; [exact K|]. split; [exact SU|].
  split. { destruct (soft_translate (SO := listing_order) net_read WB NN wished EV K SU (map (fun v => (v, prior net_read v)) (dkeys wished))) as (ev' & M & _); [intros v [<-|[<-|[<-|[]]]]; reflexivity|eauto]. }
  split; [apply nodup_s_spec; reflexivity|]. split; [exists "ABC"; split; [vm_compute; tauto|apply inclb_ok; vm_compute; reflexivity]|].
  split; [vm_compute; reflexivity|]. split; [apply qleb_true; vm_compute; reflexivity|]. split; [intros H; apply (f_equal this) in H; vm_compute in H; discriminate|].
  intros i Q. destruct i as [|[|i]]; [destruct (ZA 0 ltac:(lia) Q)|destruct (ZA 1 ltac:(lia) Q)|destruct i; reflexivity].
Qed.

Print Assumptions C81_same_program.
Print Assumptions C81_meaning.
Print Assumptions C81_tree.
Print Assumptions C81_desired.
Print Assumptions C81_zeros.
Print Assumptions C81_absolute.
Print Assumptions C81_afterwards.
Print Assumptions C81_size.
Print Assumptions C81_exact_refuted.
