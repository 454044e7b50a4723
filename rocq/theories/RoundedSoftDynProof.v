(** SoftEvidenceExact in rounded arithmetic: trees, states, answers. *)
From Verif Require Import Base BaseFacts NDArray NDArrayFacts Factor FactorFacts Exact Spec SpecFacts Order OrderSpec JoinTree HuginPure Hugin JTBuild JTProof JTProof2 TreeSpec JTTop JTJunction JTHistory
  Node Network NetSpec NetFacts NetView Dynamic DynSpec DynPure DynHeap DynPrior DynSoft Rounded RoundedSpec RoundedProof RoundedTables RoundedTop RoundedTree RoundedTreeSpec RoundedTreeProof RoundedTreeTop
  RoundedDyn RoundedDynSpec RoundedDynPure RoundedDynProof RoundedSoft RoundedSoftSpec RoundedSoftProof RoundedSoftTop RoundedSoftDyn RoundedSoftDynSpec RoundedSoftDynPure.

Section Trees.
Context {RD : Rounding} {AD : Adding} {SO : SetOrder}.

Lemma any_family b' t n Q : used_any b' t -> In n (bnodes b') -> incl Q (dn_name n :: map fst (dn_parents n)) -> answers t Q.
Proof.
  intros U Hn I. destruct (used_any_ok _ _ U) as (r & sv & J). apply answers_in_clique.
  destruct (jo_fam _ _ _ _ J (family n) (in_map _ _ _ Hn)) as (k' & E). unfold home in E.
  destruct (find _ (vars_of t)) as [[k'' c]|] eqn:EF; [|discriminate]. cbn in E. injection E as ->.
  apply find_some in EF as [F1 F2]. cbn [snd] in F2. apply subset_spec in F2.
  exists k'. split.
  - intros w Hw. unfold cvo. rewrite (In_dget k' c); [apply F2, I, Hw| |exact F1]. rewrite vars_keys. apply J.
  - rewrite <- vars_keys. apply in_map_iff. exists (k', c). auto.
Qed.

Lemma any_nonempty b' t : used_any b' t -> exists n, In n (bnodes b').
Proof.
  induction 1 as [order o t EO SU NN E|b ev t U IH|b ev t U IH|b t U IH|t U IH|Q t U IH]; try exact IH.
  assert (N := su_some _ _ SU). destruct (bnodes b') as [|n l']; [congruence|]. exists n. left. reflexivity.
Qed.

(** Desired posteriors for a tree with any past. *)
Lemma desired_tree b' t b ev Q : used_any b' t -> same_arcs b' b -> wf_bn b -> nonneg_bn b -> ev_ok b ev -> incl (dkeys ev) (bnames b) -> supported b ev -> NoDup Q -> answers t Q ->
  exists ev' t1 f, meant b ev ev' /\ rounded_posteriors b ev t = (t1, Ok tt) /\ rounded_tree t1 Q = (t1, Ok f) /\ reports b f Q (potential_at f) /\
    forall q, is_inst b Q q -> close (desired_errors b (length (tree_keys t)) Q ev) (posterior b ev' q) (potential_at f q).
Proof.
  intros U SA WB NN EV K SU ND A. destruct (used_any_ok b' t U) as (r & sv & J). assert (Jb : jt_ok b t r sv) by (eapply jt_ok_same; [exact (same_arcs_families _ _ SA)|reflexivity|exact J]).
  unfold tree_keys, dkeys. rewrite map_length. exact (posteriors_rounded b WB NN t r sv ev Q Jb EV K SU ND A).
Qed.

Lemma desired_succeeds b' t b e : used_any b' t -> same_arcs b' b -> wf_bn b -> nonneg_bn b -> ev_ok b e -> incl (dkeys e) (bnames b) -> supported b e ->
  exists t1, rounded_posteriors b e t = (t1, Ok tt) /\ forall Q, fst (rounded_tree t1 Q) = t1.
Proof.
  intros U SA WB NN EV K SU. destruct (any_nonempty _ _ U) as (n & Hn).
  destruct (desired_tree b' t b e [] U SA WB NN EV K SU) as (ev' & t1 & f & _ & E & E2 & _).
  - constructor. - apply (any_family b' t n [] U Hn). intros v [].
  - exists t1. split; [exact E|]. intros Q. rewrite (tree_same_query t1 Q []), E2. reflexivity.
Qed.
End Trees.

(** Counts grow with the number of cliques and do not depend on the numbers. *)
Lemma passing_mono b m m' Q k k' : m <= m' -> k <= k' -> passing_errors b m Q k <= passing_errors b m' Q k'.
Proof.
  intros L1 L2. unfold passing_errors. set (w := sumn _).
  assert (m * (w + 3) <= m' * (w + 3)) by (apply Nat.mul_le_mono_r, L1).
  assert (m * (2 * (k + m * (w + 3)) + w + 3) <= m' * (2 * (k' + m' * (w + 3)) + w + 3)) by (apply Nat.mul_le_mono; lia). lia.
Qed.
Definition alike (p p' : string * evid) : Prop :=
  fst p = fst p' /\ match snd p, snd p' with Hard _, Hard _ | Soft _, Soft _ => True | _, _ => False end.
Lemma items_mono b m m' l l' : m <= m' -> Forall2 alike l l' -> sumn (map (item_errors b m) l) <= sumn (map (item_errors b m') l').
Proof.
  intros L. induction 1 as [|(v & x) (v' & x') l l' (E & A) F IH]; [apply Nat.le_refl|]. cbn [fst snd] in *. subst v'.
  assert (T : tree_errors b m [v] [] <= tree_errors b m' [v] []) by (apply passing_mono; lia).
  cbn [map sumn fold_right] in *. unfold sumn in IH. unfold item_errors at 1 3. cbn [fst snd]. destruct x, x'; try contradiction; lia.
Qed.

Section Soft.
Context {RD : Rounding} {AD : Adding} {SO : SetOrder}.
Variable h : heap.
Variable d : dbnet.
Notation b0 := (view (mkW h (db0 d))).
Notation two := (view (mkW h (dtwo d))).
Notation trans := (dtrans d).
Notation sb := (slice_bn b0 two trans).
Notation ok := (soft_ok b0 two trans).
Notation base evs := (slice_base b0 two (length evs)).
Hypothesis TR : trackable b0 two trans.
Variable j : nat.
Hypothesis OP : own_priors j two trans.
Notation given_errors := (given_errors b0 two trans j).
Notation demand_errors := (demand_errors b0 two trans).

Let W0 : wf_bn b0. Proof. destruct (tr_b0 _ _ _ TR) as (o & _ & U). apply U. Qed.
Let W2 : wf_bn two. Proof. destruct (tr_two _ _ _ TR) as (o & _ & U). apply U. Qed.
Let N2 : nonneg_bn two := tr_nn _ _ _ TR.
Let WI : wired b0 two trans := tr_wired _ _ _ TR.

(** The tables that the slice after [evs] is given. *)
Definition soft_table (evs : list evidence) (e : evidence) (vp : string * string) (a : ndarray) : Prop :=
  shape a = [length (values_of two (fst vp))] /\ length (data a) = length (values_of two (fst vp)) /\ Forall (fun x => (0 <= x)%Qc) (data a) /\
  table_near (given_errors evs + demand_errors evs [snd vp] e) (prior_table (sb evs) e (snd vp)) a.
Definition tables_ok (evs : list evidence) (T : string * string -> ndarray) : Prop :=
  match evs with [] => True | e :: evs' => forall vp, In vp trans -> soft_table evs' e vp (T vp) end.
Definition softs (T : string * string -> ndarray) : evidence := map (fun vp => (fst vp, Soft (data (T vp)))) trans.
Definition asked (evs : list evidence) (T : string * string -> ndarray) (e : evidence) : evidence :=
  match evs with [] => e | _ => e ++ softs T end.

Lemma keys_of_softs T : dkeys (softs T) = map fst trans.
Proof. unfold dkeys, softs. rewrite map_map. reflexivity. Qed.

Lemma close_nth k l l' i : Forall2 (close k) l l' -> close k (nth i l 0%Qc) (nth i l' 0%Qc).
Proof. intros F. exact (forall2_nth k l l' F i). Qed.

(** The tables have the zeros of the exact ones. *)
Lemma table_zero k a a' i : table_near k a a' -> (nth i (data a) 0%Qc = 0%Qc <-> nth i (data a') 0%Qc = 0%Qc).
Proof.
  intros (_ & c & P & F). assert (C := close_nth _ _ _ i F). replace (nth i (map (Qcmult c) (data a)) 0%Qc) with (c * nth i (data a) 0)%Qc in C.
  - rewrite <- (close_zero _ _ _ C). split; [intros ->; ring|]. intros Z. apply Qcmult_integral in Z as [Z|Z]; [destruct (pos_neq _ P Z)|exact Z].
  - rewrite <- (Qcmult_0_r c) at 2. symmetry. apply (map_nth (Qcmult c)).
Qed.

Lemma asked_ok evs T e : ok evs e -> soft_legal h d evs -> tables_ok evs T ->
  ev_ok (base evs) (asked evs T e) /\ incl (dkeys (asked evs T e)) (bnames (base evs)) /\ supported (base evs) (asked evs T e).
Proof.
  intros O L H. destruct (given_evidence h d TR evs e O L) as (G1 & G2 & G3). destruct evs as [|e' evs]; [auto|]. cbn [asked evidence_of tables_ok length slice_base] in *.
  assert (KE : dkeys (e ++ softs T) = dkeys (e ++ soft_tables (fed_tables trans (sb evs) e'))).
  { unfold dkeys. rewrite !map_app. f_equal. change (dkeys (softs T) = dkeys (soft_tables (fed_tables trans (sb evs) e'))). rewrite keys_of_softs, (keys_softs h d). reflexivity. }
  split; [split|split].
  - rewrite KE. apply G1.
  - intros v x I Hv. apply in_app_or in I as [I|I]; [apply (proj2 G1 v x); [apply in_or_app; left; exact I|exact Hv]|].
    unfold softs in I. apply in_map_iff in I as (vp & E & Ip). injection E as <- <-. destruct (H vp Ip) as (_ & A2 & A3 & _). split; assumption.
  - rewrite KE. exact G2.
  - intros v q I. apply in_app_or in I as [I|I]; [apply G3, in_or_app; left; exact I|].
    unfold softs in I. apply in_map_iff in I as (vp & E & Ip). injection E as <- <-. destruct (H vp Ip) as (_ & A2 & A3 & A4).
    assert (I' : In (fst vp, Soft (data (prior_table (sb evs) e' (snd vp)))) (e ++ soft_tables (fed_tables trans (sb evs) e'))).
    { apply in_or_app. right. unfold soft_tables, fed_tables. rewrite map_map. apply in_map_iff. exists vp. auto. }
    destruct (G3 _ _ I') as [(i & Hi & Pi) ZZ]. assert (LL : length (data (prior_table (sb evs) e' (snd vp))) = length (data (T vp))).
    { destruct A4 as (_ & c & _ & F). apply forall2_length in F. rewrite map_length in F. exact F. }
    split.
    + exists i. split; [congruence|]. apply Qc_nonneg_neq0_pos; [apply nth_Forall_nonneg, A3|]. intros Z. apply (table_zero _ _ _ i A4) in Z. rewrite Z in Pi. exact (Qc_lt_irrefl _ Pi).
    + intros k Hk Z. apply (table_zero _ _ _ k A4). apply ZZ; [congruence|exact Z].
Qed.

(** What the demands amount to: a network near that of the exact method. *)
Lemma asked_mass evs T e ev' : ok evs e -> soft_legal h d evs -> tables_ok evs T -> meant (base evs) (asked evs T e) ev' ->
  exists B, mass_near (given_errors evs) (sb evs) B e /\ (0 <= mass B e [])%Qc /\ forall q, posterior (base evs) ev' q = posterior B e q.
Proof.
  intros O L H M. destruct (asked_ok evs T e O L H) as (A1 & A2 & A3). assert (HO := so_hard _ _ _ _ _ O). destruct (so_fits _ _ _ _ _ O) as [EV _]. destruct evs as [|e' evs].
  - cbn [asked length slice_base slice_bn] in *. exists b0. assert (ev' = e) as ->.
    { rewrite <- (app_nil_r e) in M. apply meant_app_hard in M as (r' & -> & M); [|exact HO]. inversion M; subst. apply app_nil_r. }
    split; [|split; [apply mass_nonneg; [exact W0|apply TR|exact EV]|reflexivity]]. exists 1%Qc. split; [reflexivity|]. intros q. rewrite Qcmult_1_l. apply close_refl, mass_nonneg; [exact W0|apply TR|exact EV].
  - cbn [asked length slice_base tables_ok] in *. assert (OFF := so_off _ _ _ _ _ O ltac:(discriminate)). apply meant_app_hard in M as (r & -> & M); [|exact HO].
    assert (MN : mass_near (given_errors (e' :: evs)) (sb (e' :: evs)) (with_tables two trans (lifts two r)) e).
    { apply (with_mass_near b0 two trans WI W2 N2 (fun vp => given_errors evs + demand_errors evs [snd vp] e' + j) (fun vp => prior_table (sb evs) e' (snd vp)) (lifts two r) e); [|exact EV].
      intros vp I. destruct (H vp I) as (B1 & B2 & B3 & B4). eapply table_near_trans; [exact B4|].
      apply (lifts_near b0 two trans WI W2 N2 j OP T r vp I M B1 B3). apply (A3 (fst vp)). apply in_or_app. right. unfold softs. apply in_map_iff. exists vp. auto. }
    exists (with_tables two trans (lifts two r)). split; [exact MN|]. split.
    + destruct MN as (c & P & C). apply (C []).
    + intros q. exact (demands_posterior b0 two trans WI W2 T e r q OFF M).
Qed.

Lemma asked_errors evs T e m Q : m <= length (bnodes (base evs)) -> desired_errors (base evs) m Q (asked evs T e) <= demand_errors evs Q e.
Proof.
  intros L. unfold RoundedSoftDynSpec.demand_errors, desired_errors. apply passing_mono; [exact L|]. apply Nat.add_le_mono_l, items_mono; [exact L|].
  assert (R : forall l : evidence, Forall2 alike l l). { induction l as [|(v & [x|x]) l IH]; constructor; (split; [reflexivity|exact Logic.I]) || exact IH. }
  destruct evs as [|e' evs]; cbn [asked demanded]; [apply R|]. apply Forall2_app; [apply R|]. unfold softs. clear. induction trans as [|vp l IH]; cbn [map]; [constructor|]. constructor; [split; [reflexivity|exact Logic.I]|exact IH].
Qed.

(** ** States *)
Definition shas_tree (s : mstate) (first : bool) (b : bn) : Prop :=
  exists t b', mtree s = Some (first, t) /\ same_arcs b' b /\ used_any b' t.
Definition sknows (s : mstate) (evs : list evidence) (e : evidence) : Prop :=
  exists T t0 b' t, tables_ok evs T /\ used_any b' t0 /\ same_arcs b' (base evs) /\ rounded_posteriors (base evs) (asked evs T e) t0 = (t, Ok tt) /\ mtree s = Some (is_nil evs, t).

Lemma sknows_has s evs e : sknows s evs e -> shas_tree s (is_nil evs) (base evs).
Proof.
  intros (T & t0 & b' & t & S & U & SA & E & M). exists t, b'. split; [exact M|]. split; [exact SA|].
  replace t with (fst (rounded_posteriors (base evs) (asked evs T e) t0)) by (rewrite E; reflexivity). apply A_posteriors, U.
Qed.

Lemma sset_knows s evs e T : shas_tree s (is_nil evs) (base evs) -> tables_ok evs T -> ok evs e -> soft_legal h d evs -> slice_net s (is_nil evs) = base evs ->
  exists s', on_tree s (fun b t => rounded_posteriors b (asked evs T e) t) = (s', Ok tt) /\ sknows s' evs e /\ same_rest s s'.
Proof.
  intros (t & b' & E & SA & U) H O L N. unfold on_tree. rewrite E, N. destruct (asked_ok evs T e O L H) as (A1 & A2 & A3).
  destruct (desired_succeeds b' t (base evs) (asked evs T e) U SA (base_wf h d TR evs) (base_nonneg h d TR evs) A1 A2 A3) as (t1 & E1 & _).
  exists (with_tree s (Some (is_nil evs, t1))). rewrite E1. split; [reflexivity|]. split; [|apply same_rest_tree].
  exists T, t, b', t1. auto.
Qed.

Lemma sany_has s first b e : shas_tree s first b ->
  shas_tree (fst (on_tree s (fun b t => rounded_posteriors b e t))) first b /\ same_rest s (fst (on_tree s (fun b t => rounded_posteriors b e t))).
Proof.
  intros (t & b' & E & SA & U). unfold on_tree. rewrite E. split; [|apply same_rest_tree].
  eexists _, b'. split; [reflexivity|]. split; [exact SA|]. apply A_posteriors, U.
Qed.

Lemma screated_has s (evs : list evidence) : slice_net s (is_nil evs) = base evs ->
  exists s', new_tree_by rounded_jointree s (is_nil evs) = (s', Ok tt) /\ shas_tree s' (is_nil evs) (base evs) /\ same_rest s s'.
Proof.
  intros N. destruct (base_suited h d TR evs) as (o & EO & U). unfold new_tree_by. rewrite N.
  destruct (create_rounded (base evs) None o U (base_nonneg h d TR evs) EO) as (t & t' & r & sv & c & _ & E' & _). rewrite E'.
  eexists. split; [reflexivity|]. split; [|apply same_rest_tree].
  exists t', (base evs). split; [reflexivity|]. split; [reflexivity|]. eapply A_create; [exact EO|exact U|apply (base_nonneg h d TR)|exact E'].
Qed.

Lemma squery_knows s evs e Q : sknows s evs e -> ok evs e -> soft_legal h d evs -> fst (rsmarginals s Q) = s.
Proof.
  intros (T & t0 & b' & t & S & U & SA & E & M) O L. unfold rsmarginals, dmarginals_by, on_tree. rewrite M. cbn [fst].
  destruct (asked_ok evs T e O L S) as (A1 & A2 & A3). destruct (desired_succeeds b' t0 (base evs) (asked evs T e) U SA (base_wf h d TR evs) (base_nonneg h d TR evs) A1 A2 A3) as (t1 & E1 & Q1).
  assert (t1 = t) by congruence. subst t1. rewrite Q1. destruct s. cbn in *. rewrite <- M. reflexivity.
Qed.
Lemma squery_has s first b Q : shas_tree s first b -> shas_tree (fst (rsmarginals s Q)) first b.
Proof.
  intros (t & b' & E & SA & U). unfold rsmarginals, dmarginals_by, on_tree. rewrite E. eexists _, b'. split; [reflexivity|]. split; [exact SA|]. apply A_query, U.
Qed.
Lemma squery_rest s Q : same_rest s (fst (rsmarginals s Q)).
Proof. unfold rsmarginals, dmarginals_by, on_tree. destruct (mtree s) as [[first t]|]; repeat split. Qed.

(** The answers. *)
Lemma sknows_answer s evs e n Q : sknows s evs e -> ok evs e -> soft_legal h d evs -> In n (bnodes (base evs)) -> NoDup Q -> incl Q (dn_name n :: map fst (dn_parents n)) ->
  exists T ev' f, tables_ok evs T /\ meant (base evs) (asked evs T e) ev' /\ rsmarginals s Q = (s, Ok f) /\ reports (base evs) f Q (potential_at f) /\
    forall q, is_inst (base evs) Q q -> close (demand_errors evs Q e) (posterior (base evs) ev' q) (potential_at f q).
Proof.
  intros K O L Hn ND I. assert (Qs := squery_knows s evs e Q K O L). destruct K as (T & t0 & b' & t & S & U & SA & E & M). destruct (asked_ok evs T e O L S) as (A1 & A2 & A3).
  assert (In (dn_name n, map fst (dn_parents n)) (map (fun n => (dn_name n, map fst (dn_parents n))) (bnodes b'))) as Hn'.
  { rewrite SA. exact (in_map (fun n => (dn_name n, map fst (dn_parents n))) _ _ Hn). }
  apply in_map_iff in Hn' as (n' & En & Hn'). injection En as E1 E2. rewrite <- E1, <- E2 in I.
  destruct (desired_tree b' t0 (base evs) (asked evs T e) Q U SA (base_wf h d TR evs) (base_nonneg h d TR evs) A1 A2 A3 ND (any_family b' t0 n' Q U Hn' I)) as (ev' & t1 & f & ME & Et & Eq & R & C).
  assert (t1 = t) by congruence. subst t1. exists T, ev', f. split; [exact S|]. split; [exact ME|]. split.
  { unfold rsmarginals, dmarginals_by, on_tree in *. rewrite M in *. cbn [fst] in Qs. rewrite Eq in *. cbn [fst snd] in *. rewrite Qs. reflexivity. }
  split; [exact R|]. intros q Hq. eapply close_mono; [|apply C, Hq]. apply asked_errors. eapply Nat.le_trans; [apply (used_any_size b' t0 U)|].
  apply (f_equal (@length _)) in SA. rewrite !map_length in SA. lia.
Qed.

(** The table handed over. *)
Lemma sknows_table s evs e v p : sknows s evs e -> ok evs e -> soft_legal h d evs -> In (v, p) trans ->
  exists a, slice_table_by rounded_tree s p = (s, Ok a) /\ soft_table evs e (v, p) a.
Proof.
  intros K O L I. assert (Hp : In p (bnames (base evs))).
  { destruct evs; cbn [length slice_base]; [apply (wi_b0 _ _ _ WI v p I)|apply (wi_two _ _ _ WI v p I)]. }
  assert (Hp' := Hp). apply in_map_iff in Hp as (n & En & Hn).
  destruct (sknows_answer s evs e n [p] K O L Hn) as (T & ev' & f & S & ME & Eq & R & C); [constructor; [intros []|constructor]|rewrite En; intros w [->|[]]; left; reflexivity|].
  unfold slice_table_by. fold rsmarginals. rewrite Eq. exists (pot f). rewrite (potential_whole (base evs) f _ _ R). split; [reflexivity|].
  assert (WB := base_wf h d TR evs).
  assert (V : values_of (base evs) p = values_of two v).
  { destruct evs; cbn [length slice_base]; [apply (wi_b0 _ _ _ WI v p I)|apply (wi_two _ _ _ WI v p I)]. }
  assert (D : data (pot f) = map (fun x => potential_at f [(p, x)]) (values_of (base evs) p)) by (apply (reports_single_gen (base evs) f p (potential_at f) WB R Hp')).
  assert (OR := reports_order1 (base evs) f p _ R). destruct R as (_ & _ & _ & _ & SH & _). rewrite OR in SH. cbn in SH. unfold soft_table. cbn [fst snd].
  assert (INST : forall x, In x (values_of (base evs) p) -> is_inst (base evs) [p] [(p, x)]).
  { intros x Hx. split; [constructor; [intros []|constructor]|]. split; [reflexivity|]. intros u y [H|[]]. injection H as <- <-. exact Hx. }
  split; [rewrite SH, V; reflexivity|]. split; [rewrite D, map_length, V; reflexivity|]. split.
  { rewrite D. apply Forall_forall. intros x Hx. apply in_map_iff in Hx as (y & <- & Hy). apply (C _ (INST y Hy)). }
  destruct (asked_mass evs T e ev' O L S ME) as (B & MN & MP & PE).
  destruct (RoundedDynPure.posterior_scaled _ (sb evs) B e MN MP) as (c & P & CS).
  split; [cbn [prior_table shape]; rewrite SH, (slice_values b0 two trans WI evs p v I), V; reflexivity|]. exists c. split; [exact P|].
  cbn [prior_table data]. rewrite (slice_values b0 two trans WI evs p v I), D, V, map_map.
  assert (X : forall x, In x (values_of two v) -> close (given_errors evs + demand_errors evs [p] e) (c * posterior (sb evs) e [(p, x)])%Qc (potential_at f [(p, x)])).
  { intros x Hx. rewrite <- V in Hx. eapply close_trans; [apply CS|]. rewrite <- PE. apply C, INST, Hx. }
  revert X. generalize (values_of two v). clear. intros l X. induction l as [|x l IH]; cbn [map]; constructor; [apply X; left; reflexivity|]. apply IH. intros y Hy. apply X. right. exact Hy.
Qed.
End Soft.
