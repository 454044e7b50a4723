(** PriorFeedbackExact in rounded arithmetic: what sessions keep. *)
From Verif Require Import Base BaseFacts NDArray NDArrayFacts Factor FactorFacts Exact Spec SpecFacts Order OrderSpec JoinTree TreeSpec JTBuild JTProof JTProof2 JTTop JTJunction JTHistory
  Node Network NetSpec NetFacts NetView Dynamic DynSpec DynPure DynHeap DynPrior Rounded RoundedSpec RoundedProof RoundedTables RoundedTop RoundedTree RoundedTreeSpec RoundedTreeProof RoundedTreeTop
  RoundedDyn RoundedDynSpec RoundedDynPure.

Section Trees.
Context {RD : Rounding} {AD : Adding} {SO : SetOrder}.

Lemma used_family b' t n Q : used b' t -> In n (bnodes b') -> incl Q (dn_name n :: map fst (dn_parents n)) -> answers t Q.
Proof.
  intros U Hn I. destruct (used_ok _ _ U) as (r & sv & J). apply answers_in_clique.
  destruct (jo_fam _ _ _ _ J (family n) (in_map _ _ _ Hn)) as (k' & E). unfold home in E.
  destruct (find _ (vars_of t)) as [[k'' c]|] eqn:EF; [|discriminate]. cbn in E. injection E as ->.
  apply find_some in EF as [F1 F2]. cbn [snd] in F2. apply subset_spec in F2.
  exists k'. split.
  - intros w Hw. unfold cvo. rewrite (In_dget k' c); [apply F2, I, Hw| |exact F1]. rewrite vars_keys. apply J.
  - rewrite <- vars_keys. apply in_map_iff. exists (k', c). auto.
Qed.

Lemma used_nonempty b' t : used b' t -> exists n, In n (bnodes b').
Proof.
  intros U. destruct (used_skel _ _ U) as (order & o & l & cs & _ & SU & _). assert (N := su_some _ _ SU). destruct (bnodes b') as [|n l']; [congruence|]. exists n. left. reflexivity.
Qed.

Lemma tree_same_query t Q Q' : fst (rounded_tree t Q) = fst (rounded_tree t Q').
Proof. unfold rounded_tree, tmarginals_by. destruct (if tvalid t then _ else _) as [t' [u|e]]; reflexivity. Qed.

(** Resetting succeeds. *)
Lemma reset_succeeds b' t b : used b' t -> same_arcs b' b -> wf_bn b -> nonneg_bn b -> rounded_reset b t = (fst (rounded_reset b t), Ok tt).
Proof.
  intros U SA WB NN. destruct (used_nonempty _ _ U) as (n & Hn).
  destruct (tree_rounded b' t b [] [] U SA WB NN) as (t1 & f & E & _).
  - split; [constructor|intros v e []]. - intros v []. - constructor. - apply (used_family b' t n [] U Hn). intros v [].
  - unfold rounded_evidence, set_evidence_by in E. fold (rounded_reset b t) in E. destruct (rounded_reset b t) as [t2 [[]|e]]; [reflexivity|discriminate].
Qed.

(** Evidence is set. *)
Lemma evidence_succeeds b' t b e : used b' t -> same_arcs b' b -> wf_bn b -> nonneg_bn b -> ev_ok b e -> incl (dkeys e) (bnames b) ->
  exists t1, rounded_evidence b e t = (t1, Ok tt) /\ forall Q, fst (rounded_tree t1 Q) = t1.
Proof.
  intros U SA WB NN EV K. destruct (used_nonempty _ _ U) as (n & Hn).
  destruct (tree_rounded b' t b e [] U SA WB NN EV K) as (t1 & f & E & E2 & _).
  - constructor. - apply (used_family b' t n [] U Hn). intros v [].
  - exists t1. split; [exact E|]. intros Q. rewrite (tree_same_query t1 Q []), E2. reflexivity.
Qed.
End Trees.

Lemma reports_single_gen b f v P : wf_bn b -> reports b f [v] P -> In v (bnames b) -> data (pot f) = map (fun x => P [(v, x)]) (values_of b v).
Proof.
  intros WB R Hv. assert (O := reports_order1 b f v _ R). destruct R as (H1 & H2 & H3 & H4 & H5 & H6 & H7).
  rewrite O in *. cbn in H5. rewrite H5 in H6. cbn in H6. rewrite Nat.mul_1_r in H6.
  apply nth_ext with (d := 0%Qc) (d' := 0%Qc); [rewrite map_length; exact H6|].
  intros i Hi. rewrite H6 in Hi.
  assert (ND : NoDup (values_of b v)).
  { destruct (in_bnames b v Hv) as (n & Hn & <-). rewrite (values_of_node b WB n Hn). apply (wn_values _ _ (wb_nodes _ WB n Hn)). }
  rewrite (nth_indep (map _ _) 0%Qc (P [(v, "")])) by (rewrite map_length; exact Hi).
  rewrite (map_nth (fun x => P [(v, x)])). rewrite <- H7.
  - unfold potential_at. rewrite O. cbn [map]. rewrite (H3 v (or_introl eq_refl)).
    unfold look. cbn [dget]. rewrite eqb_refl_s. unfold aget. rewrite H5. cbn. rewrite position_idx.
    rewrite idx_nth by assumption. f_equal. lia.
  - split; [cbn; constructor; [tauto|constructor]|]. split; [reflexivity|].
    intros w x [E|[]]. inversion E; subst. apply nth_In, Hi.
Qed.

Section Prior.
Context {RD : Rounding} {AD : Adding} {SO : SetOrder}.
Variable h : heap.
Variable d : dbnet.
Notation b0 := (view (mkW h (db0 d))).
Notation two := (view (mkW h (dtwo d))).
Notation trans := (dtrans d).
Notation sb := (slice_bn b0 two trans).
Hypothesis TR : trackable b0 two trans.
Hypothesis OB : objects h d.

Let W0 : wf_bn b0. Proof. destruct (tr_b0 _ _ _ TR) as (o & _ & U). apply U. Qed.
Let W2 : wf_bn two. Proof. destruct (tr_two _ _ _ TR) as (o & _ & U). apply U. Qed.
Let N2 : nonneg_bn two := tr_nn _ _ _ TR.
Let WI : wired b0 two trans := tr_wired _ _ _ TR.

(** The network of the slice after [evs], as the program has it. *)
Definition handed_table (evs : list evidence) (e : evidence) (vp : string * string) (a : ndarray) : Prop :=
  shape a = [length (values_of two (fst vp))] /\ length (data a) = length (values_of two (fst vp)) /\ Forall (fun x => (0 <= x)%Qc) (data a) /\
  table_near (handed_errors b0 two trans evs + slice_errors b0 two (length evs) [snd vp] e) (prior_table (sb evs) e (snd vp)) a.
Definition slice (evs : list evidence) (B : bn) : Prop :=
  match evs with
  | [] => B = b0
  | e :: evs' => exists T, B = with_tables two trans T /\ forall vp, In vp trans -> handed_table evs' e vp (T vp)
  end.

Lemma with_fits T : (forall vp, In vp trans -> shape (T vp) = [length (values_of two (fst vp))] /\ length (data (T vp)) = length (values_of two (fst vp))) ->
  fits two (map (fun vp => (fst vp, T vp)) trans).
Proof.
  intros H n a Hn D. apply dget_with_inv in D as (vp & I & E & ->). destruct (H vp I) as [S L]. rewrite S. destruct vp as [v p]. cbn [fst] in *.
  rewrite (root_unique b0 two trans WI W2 v p n I Hn E). rewrite L. cbn. rewrite <- E, (values_of_node two W2 n Hn). split; [reflexivity|lia].
Qed.

Lemma slice_fits evs T : (forall vp, In vp trans -> exists e, handed_table evs e vp (T vp)) -> fits two (map (fun vp => (fst vp, T vp)) trans).
Proof. intros H. apply with_fits. intros vp I. destruct (H vp I) as (e & S & L & _). auto. Qed.

Lemma slice_wf' evs B : slice evs B -> wf_bn B.
Proof.
  destruct evs as [|e evs]; cbn [slice]; [intros ->; exact W0|]. intros (T & -> & H). apply fed_wf; [exact W2|]. apply (slice_fits evs). intros vp I. exists e. apply H, I.
Qed.
Lemma slice_nonneg' evs B : slice evs B -> nonneg_bn B.
Proof.
  destruct evs as [|e evs]; cbn [slice]; [intros ->; apply TR|]. intros (T & -> & H). apply fed_nonneg; [exact N2|]. intros v a D. apply dget_with_inv in D as (vp & I & _ & ->). apply (H vp I).
Qed.
Lemma slice_suited' evs B : slice evs B -> suited B.
Proof.
  destruct evs as [|e evs]; cbn [slice]; [intros ->; apply TR|]. intros (T & -> & H). destruct (tr_two _ _ _ TR) as (o & EO & U). exists o. unfold with_tables. rewrite fed_order. split; [exact EO|].
  apply fed_suits; [exact U|]. apply (slice_fits evs). intros vp I. exists e. apply H, I.
Qed.
Lemma slice_arcs' evs B : slice evs B -> same_arcs (slice_base b0 two (length evs)) B.
Proof. destruct evs as [|e evs]; cbn [slice length slice_base]; [intros ->; reflexivity|]. intros (T & -> & _). apply fed_arcs. Qed.
Lemma slice_bvars' evs B : slice evs B -> bvars B = bvars (slice_base b0 two (length evs)).
Proof. destruct evs as [|e evs]; cbn [slice length slice_base]; [intros ->; reflexivity|]. intros (T & -> & _). apply fed_bvars. Qed.
Lemma slice_names' evs B : slice evs B -> bnames B = bnames (slice_base b0 two (length evs)).
Proof. destruct evs as [|e evs]; cbn [slice length slice_base]; [intros ->; reflexivity|]. intros (T & -> & _). apply fed_bnames. Qed.
Lemma slice_values' evs B v : slice evs B -> values_of B v = values_of (slice_base b0 two (length evs)) v.
Proof. destruct evs as [|e evs]; cbn [slice length slice_base]; [intros ->; reflexivity|]. intros (T & -> & _). apply fed_values. Qed.
Lemma slice_size' evs B : slice evs B -> length (bnodes B) = length (bnodes (slice_base b0 two (length evs))).
Proof. destruct evs as [|e evs]; cbn [slice length slice_base]; [intros ->; reflexivity|]. intros (T & -> & _). unfold with_tables, fed. cbn. apply map_length. Qed.

Lemma slice_fitting evs B e : slice evs B -> fitting_evidence b0 two evs e -> ev_ok B e /\ incl (dkeys e) (bnames B).
Proof.
  intros S [[E1 E2] I]. rewrite (slice_names' _ _ S). split; [|exact I]. split; [exact E1|]. intros v x H V. rewrite (slice_values' _ _ _ S). apply E2; [exact H|]. rewrite <- (slice_names' _ _ S). exact V.
Qed.

(** Its masses. *)
Lemma slice_mass evs B e : slice evs B -> ev_ok B e -> mass_near (handed_errors b0 two trans evs) (sb evs) B e.
Proof.
  destruct evs as [|e' evs]; cbn [slice].
  - intros -> EV. exists 1%Qc. split; [reflexivity|]. intros q. rewrite Qcmult_1_l. apply close_refl, mass_nonneg; [exact W0|apply TR|exact EV].
  - intros (T & -> & H) EV. cbn [handed_errors slice_bn].
    apply (with_mass_near b0 two trans WI W2 N2 _ (fun vp => prior_table (sb evs) e' (snd vp)) T e).
    + intros vp I. apply (H vp I).
    + destruct EV as [E1 E2]. split; [exact E1|]. intros v x I V. unfold with_tables in E2. rewrite fed_bnames in E2. specialize (E2 v x I V). rewrite fed_values in E2. exact E2.
Qed.

(** Error counts do not depend on the numbers, and grow with the number of cliques. *)
Lemma errors_same evs B m Q e : slice evs B -> m <= length (bnodes B) -> tree_errors B m Q e <= slice_errors b0 two (length evs) Q e.
Proof.
  intros S L. unfold slice_errors, tree_errors. rewrite (slice_size' _ _ S) in *.
  assert (Z : forall vs, sizes B vs = sizes (slice_base b0 two (length evs)) vs). { intros vs. unfold sizes. apply map_ext. intros v. rewrite (slice_values' _ _ _ S). reflexivity. }
  unfold passing_errors. rewrite (slice_names' _ _ S), !Z. set (w := sumn _). set (n := length (bnodes (slice_base b0 two (length evs)))) in *. set (k := n + length e).
  assert (m * (w + 3) <= n * (w + 3)) by (apply Nat.mul_le_mono_r, L).
  assert (m * (2 * (k + m * (w + 3)) + w + 3) <= n * (2 * (k + n * (w + 3)) + w + 3)) by (apply Nat.mul_le_mono; lia). lia.
Qed.

(** ** States *)
Definition rhas_tree (s : mstate) (first : bool) (b : bn) : Prop :=
  exists t b', mtree s = Some (first, t) /\ same_arcs b' b /\ used b' t.
Definition rknows (s : mstate) (evs : list evidence) (e : evidence) : Prop :=
  exists B t0 b' t, slice evs B /\ used b' t0 /\ same_arcs b' B /\ rounded_evidence B e t0 = (t, Ok tt) /\ mtree s = Some (is_nil evs, t).

Lemma rknows_has s evs e : rknows s evs e -> rhas_tree s (is_nil evs) (slice_base b0 two (length evs)).
Proof.
  intros (B & t0 & b' & t & S & U & SA & E & M). exists t, b'. split; [exact M|]. split.
  - eapply same_arcs_trans; [exact SA|apply same_arcs_sym, slice_arcs', S].
  - replace t with (fst (rounded_evidence B e t0)) by (rewrite E; reflexivity). apply U_evidence, U.
Qed.

Lemma rset_knows s evs e B : rhas_tree s (is_nil evs) (slice_base b0 two (length evs)) -> slice evs B -> fitting_evidence b0 two evs e -> slice_net s (is_nil evs) = B ->
  exists s', on_tree s (fun b t => rounded_evidence b e t) = (s', Ok tt) /\ rknows s' evs e /\ same_rest s s'.
Proof.
  intros (t & b' & E & SA & U) S F N. unfold on_tree. rewrite E, N. destruct (slice_fitting _ _ _ S F) as [EV K].
  assert (SA' : same_arcs b' B) by (eapply same_arcs_trans; [exact SA|apply slice_arcs', S]).
  destruct (evidence_succeeds b' t B e U SA' (slice_wf' _ _ S) (slice_nonneg' _ _ S) EV K) as (t1 & E1 & _).
  exists (with_tree s (Some (is_nil evs, t1))). rewrite E1. split; [reflexivity|]. split; [|apply same_rest_tree].
  exists B, t, b', t1. auto.
Qed.

Lemma rreset_has s evs B : rhas_tree s (is_nil evs) (slice_base b0 two (length evs)) -> slice evs B -> slice_net s (is_nil evs) = B ->
  exists s', on_tree s rounded_reset = (s', Ok tt) /\ rhas_tree s' (is_nil evs) (slice_base b0 two (length evs)) /\ same_rest s s'.
Proof.
  intros (t & b' & E & SA & U) S N. unfold on_tree. rewrite E, N.
  assert (SA' : same_arcs b' B) by (eapply same_arcs_trans; [exact SA|apply slice_arcs', S]).
  rewrite (reset_succeeds b' t B U SA' (slice_wf' _ _ S) (slice_nonneg' _ _ S)). eexists. split; [reflexivity|]. split; [|apply same_rest_tree].
  eexists _, b'. split; [reflexivity|]. split; [exact SA|]. apply U_reset, U.
Qed.

Lemma rany_has s first b e : rhas_tree s first b ->
  rhas_tree (fst (on_tree s (fun b t => rounded_evidence b e t))) first b /\ same_rest s (fst (on_tree s (fun b t => rounded_evidence b e t))).
Proof.
  intros (t & b' & E & SA & U). unfold on_tree. rewrite E. split; [|apply same_rest_tree].
  eexists _, b'. split; [reflexivity|]. split; [exact SA|]. apply U_evidence, U.
Qed.

Lemma rcreated_has s evs B : slice_net s (is_nil evs) = B -> slice evs B ->
  exists s', new_tree_by rounded_jointree s (is_nil evs) = (s', Ok tt) /\ rhas_tree s' (is_nil evs) (slice_base b0 two (length evs)) /\ same_rest s s'.
Proof.
  intros N S. destruct (slice_suited' _ _ S) as (o & EO & U). unfold new_tree_by. rewrite N.
  destruct (create_rounded B None o U (slice_nonneg' _ _ S) EO) as (t & t' & r & sv & c & _ & E' & _). rewrite E'.
  eexists. split; [reflexivity|]. split; [|apply same_rest_tree].
  exists t', B. split; [reflexivity|]. split; [apply same_arcs_sym, slice_arcs', S|]. eapply U_create; [exact EO|exact U|apply (slice_nonneg' _ _ S)|exact E'].
Qed.

Lemma rquery_knows s evs e Q : rknows s evs e -> fitting_evidence b0 two evs e -> fst (rdmarginals s Q) = s.
Proof.
  intros (B & t0 & b' & t & S & U & SA & E & M) F. unfold rdmarginals, dmarginals_by, on_tree. rewrite M. cbn [fst].
  destruct (slice_fitting _ _ _ S F) as [EV K]. destruct (evidence_succeeds b' t0 B e U SA (slice_wf' _ _ S) (slice_nonneg' _ _ S) EV K) as (t1 & E1 & Q1).
  assert (t1 = t) by congruence. subst t1. rewrite Q1. destruct s. cbn in *. rewrite <- M. reflexivity.
Qed.
Lemma rquery_has s first b Q : rhas_tree s first b -> rhas_tree (fst (rdmarginals s Q)) first b.
Proof.
  intros (t & b' & E & SA & U). unfold rdmarginals, dmarginals_by, on_tree. rewrite E. eexists _, b'. split; [reflexivity|]. split; [exact SA|]. apply U_query, U.
Qed.
Lemma rquery_rest s Q : same_rest s (fst (rdmarginals s Q)).
Proof. unfold rdmarginals, dmarginals_by, on_tree. destruct (mtree s) as [[first t]|]; repeat split. Qed.

(** The answers. *)
Lemma rknows_answer s evs e n Q : rknows s evs e -> fitting_evidence b0 two evs e -> In n (bnodes (slice_base b0 two (length evs))) -> NoDup Q -> incl Q (dn_name n :: map fst (dn_parents n)) ->
  exists B f, slice evs B /\ rdmarginals s Q = (s, Ok f) /\ reports B f Q (potential_at f) /\
    forall q, is_inst B Q q -> close (slice_errors b0 two (length evs) Q e) (posterior B e q) (potential_at f q).
Proof.
  intros K F Hn ND I. assert (Qs := rquery_knows s evs e Q K F). destruct K as (B & t0 & b' & t & S & U & SA & E & M). destruct (slice_fitting _ _ _ S F) as [EV KE].
  assert (SB : same_arcs b' (slice_base b0 two (length evs))) by (eapply same_arcs_trans; [exact SA|apply same_arcs_sym, slice_arcs', S]).
  assert (In (dn_name n, map fst (dn_parents n)) (map (fun n => (dn_name n, map fst (dn_parents n))) (bnodes b'))) as Hn'.
  { rewrite SB. exact (in_map (fun n => (dn_name n, map fst (dn_parents n))) _ _ Hn). }
  apply in_map_iff in Hn' as (n' & En & Hn'). injection En as E1 E2. rewrite <- E1, <- E2 in I.
  destruct (tree_rounded b' t0 B e Q U SA (slice_wf' _ _ S) (slice_nonneg' _ _ S) EV KE ND (used_family b' t0 n' Q U Hn' I)) as (t1 & f & Et & Eq & R & C).
  assert (t1 = t) by congruence. subst t1. exists B, f. split; [exact S|]. split.
  { unfold rdmarginals, dmarginals_by, on_tree in *. rewrite M in *. cbn [fst] in Qs. rewrite Eq in *. cbn [fst snd] in *. rewrite Qs. reflexivity. }
  split; [exact R|]. intros q Hq. eapply close_mono; [|apply C, Hq]. apply errors_same; [exact S|]. eapply Nat.le_trans; [apply (used_size b' t0 U)|].
  apply (f_equal (@length _)) in SA. rewrite !map_length in SA. lia.
Qed.

(** The table handed over. *)
Lemma rknows_table s evs e v p : rknows s evs e -> fitting_evidence b0 two evs e -> In (v, p) trans ->
  exists a, slice_table_by rounded_tree s p = (s, Ok a) /\ handed_table evs e (v, p) a.
Proof.
  intros K F I. assert (Hp : In p (bnames (slice_base b0 two (length evs)))).
  { destruct evs; cbn [length slice_base]; [apply (wi_b0 _ _ _ WI v p I)|apply (wi_two _ _ _ WI v p I)]. }
  assert (Hp' := Hp). apply in_map_iff in Hp as (n & En & Hn).
  destruct (rknows_answer s evs e n [p] K F Hn) as (B & f & S & Eq & R & C); [constructor; [intros []|constructor]|rewrite En; intros w [->|[]]; left; reflexivity|].
  unfold slice_table_by. fold rdmarginals. rewrite Eq. exists (pot f). rewrite (potential_whole B f _ _ R). split; [reflexivity|].
  assert (WB := slice_wf' _ _ S). assert (HB : In p (bnames B)) by (rewrite (slice_names' _ _ S); exact Hp').
  assert (V : values_of B p = values_of two v).
  { rewrite (slice_values' _ _ _ S). destruct evs; cbn [length slice_base]; [apply (wi_b0 _ _ _ WI v p I)|apply (wi_two _ _ _ WI v p I)]. }
  assert (D : data (pot f) = map (fun x => potential_at f [(p, x)]) (values_of B p)) by (apply (reports_single_gen B f p (potential_at f) WB R HB)).
  assert (O := reports_order1 B f p _ R). destruct R as (_ & _ & _ & _ & SH & _). rewrite O in SH. cbn in SH. unfold handed_table. cbn [fst snd].
  assert (INST : forall x, In x (values_of B p) -> is_inst B [p] [(p, x)]).
  { intros x Hx. split; [constructor; [intros []|constructor]|]. split; [reflexivity|]. intros u y [H|[]]. injection H as <- <-. exact Hx. }
  split; [rewrite SH, V; reflexivity|]. split; [rewrite D, map_length, V; reflexivity|]. split.
  { rewrite D. apply Forall_forall. intros x Hx. apply in_map_iff in Hx as (y & <- & Hy). apply (C _ (INST y Hy)). }
  destruct (slice_fitting _ _ _ S F) as [EV KE].
  destruct (posterior_scaled _ (sb evs) B e (slice_mass evs B e S EV)) as (c & P & CS); [apply mass_nonneg; [exact (slice_wf' _ _ S)|exact (slice_nonneg' _ _ S)|exact EV]|].
  split; [cbn [prior_table shape]; rewrite SH, (slice_values b0 two trans WI evs p v I), V; reflexivity|]. exists c. split; [exact P|].
  cbn [prior_table data]. rewrite (slice_values b0 two trans WI evs p v I), D, V, map_map.
  assert (X : forall x, In x (values_of two v) -> close (handed_errors b0 two trans evs + slice_errors b0 two (length evs) [p] e) (c * posterior (sb evs) e [(p, x)])%Qc (potential_at f [(p, x)])).
  { intros x Hx. rewrite <- V in Hx. eapply close_trans; [apply CS|]. apply C, INST, Hx. }
  revert X. generalize (values_of two v). clear. intros l X. induction l as [|x l IH]; cbn [map]; constructor; [apply X; left; reflexivity|]. apply IH. intros y Hy. apply X. right. exact Hy.
Qed.
End Prior.
