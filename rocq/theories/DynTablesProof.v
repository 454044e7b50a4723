(** The tables of filtering do not grow with time. *)
From Verif Require Import Base BaseFacts NDArray NDArrayFacts SumCalc Factor FactorFacts Exact Spec SpecFacts VEProof VEProof2 Order OrderSpec OrderProof
  JoinTree HuginPure Hugin JTProof JTProof2 JTBuild JTBuild2 JTBuild3 TreeSpec JTTop JTAgain JTAgain2 JTAgain3 SepSpec TablesSpec TablesTop
  RoundedTree RoundedTreeProof RoundedSoft RoundedSoftTop TreeTables TreeTablesSpec TreeTablesProof Node Network NetSpec NetFacts NetView Dynamic DynPure DynHeap RoundedDyn RoundedSoftDyn DynTables DynTablesSpec.

(** Everything but the tables. *)
Definition frame (b : bn) := (map (fun n => (dn_name n, dn_values n, dn_parents n, dn_pdict n)) (bnodes b), border b, bedges b).

Lemma frame_arcs b b' : frame b = frame b' -> same_arcs b b'.
Proof.
  unfold frame, same_arcs. intros E. injection E as E _ _.
  apply (f_equal (map (fun q : string * list string * dict (list string) * list string => (fst (fst (fst q)), map fst (snd (fst q)))))) in E. rewrite !map_map in E. exact E.
Qed.

Lemma frame_values b b' : frame b = frame b' -> forall v, values_of b v = values_of b' v.
Proof.
  unfold frame. intros E v. injection E as E _ _. unfold values_of, get_node. revert E. generalize (bnodes b'). induction (bnodes b) as [|n l IH]; intros [|n' l'] E; try discriminate; [reflexivity|].
  cbn [map] in E. injection E as E1 E2 E3 E4 E. cbn [find]. rewrite E1. destruct (String.eqb v (dn_name n')); [cbn; exact E2|apply IH, E].
Qed.

Lemma frame_order b b' : frame b = frame b' -> order_or_default b None = order_or_default b' None.
Proof.
  unfold frame. intros E. injection E as E1 E2 E3. cbn [order_or_default]. unfold get_min_degree_order, to_undirected. rewrite E2, E3.
  apply (f_equal (@length _)) in E1. rewrite !map_length in E1. rewrite E1. reflexivity.
Qed.

Lemma frame_entries b b' K : frame b = frame b' -> entries b K = entries b' K.
Proof. intros E. unfold entries. f_equal. apply map_ext. intros v. rewrite (frame_values b b' E). reflexivity. Qed.

Lemma frame_graph b b' : frame b = frame b' -> wf_graph b -> wf_graph b'.
Proof.
  intros E [A C D]. assert (N := same_arcs_names b b' (frame_arcs b b' E)). unfold frame in E. injection E as _ E2 E3. rewrite N, E2 in *. rewrite E3 in D. split; assumption.
Qed.

Lemma arcs_match b b' : same_arcs b b' -> bedges b = bedges b' -> edges_match b -> edges_match b'.
Proof.
  intros SA E M u v. rewrite <- E. rewrite (M u v). unfold same_arcs in SA.
  assert (H : forall b1 b2, map (fun n => (dn_name n, map fst (dn_parents n))) (bnodes b1) = map (fun n => (dn_name n, map fst (dn_parents n))) (bnodes b2) ->
     (exists n, In n (bnodes b1) /\ dn_name n = v /\ In u (map fst (dn_parents n))) -> exists n, In n (bnodes b2) /\ dn_name n = v /\ In u (map fst (dn_parents n))).
  { intros b1 b2 X (n & Hn & En & Hu). assert (Y : In (dn_name n, map fst (dn_parents n)) (map (fun n => (dn_name n, map fst (dn_parents n))) (bnodes b2))).
    { rewrite <- X. apply (in_map (fun n => (dn_name n, map fst (dn_parents n)))), Hn. }
    apply in_map_iff in Y as (n' & Y & Hn'). injection Y as Y1 Y2. exists n'. rewrite Y1, Y2. auto. }
  split; apply H; [exact SA|symmetry; exact SA].
Qed.

Lemma frame_match b b' : frame b = frame b' -> edges_match b -> edges_match b'.
Proof. intros E. apply arcs_match; [apply frame_arcs, E|]. unfold frame in E. injection E as _ _ E. exact E. Qed.

Lemma frame_roomy b b' o B : frame b = frame b' -> roomy b o B -> roomy b' o B.
Proof.
  intros E R K ND H. rewrite <- (frame_entries b b' K E). apply R; [exact ND|]. apply (same_round b' b o K); [|exact H].
  apply frame_arcs. symmetry. exact E.
Qed.

(** ** Writing a table of the same shape *)
Definition retabled (n n' : dnode) : Prop :=
  dn_name n' = dn_name n /\ dn_values n' = dn_values n /\ dn_parents n' = dn_parents n /\ dn_pdict n' = dn_pdict n /\
  shape (dn_cpd n') = shape (dn_cpd n) /\ (n' = n \/ length (data (dn_cpd n')) = prodn (shape (dn_cpd n'))).

Lemma retabled_wf b b' : Forall2 retabled (bnodes b) (bnodes b') -> border b' = border b -> bedges b' = bedges b ->
  frame b = frame b' /\ (wf_bn b -> wf_bn b').
Proof.
  intros F E1 E2.
  assert (M : map (fun n => (dn_name n, dn_values n, dn_parents n, dn_pdict n)) (bnodes b') = map (fun n => (dn_name n, dn_values n, dn_parents n, dn_pdict n)) (bnodes b)).
  { clear -F. induction F as [|n n' l l' (A1 & A2 & A3 & A4 & _) F IH]; [reflexivity|]. cbn [map]. rewrite A1, A2, A3, A4, IH. reflexivity. }
  assert (FR : frame b = frame b') by (unfold frame; rewrite M, E1, E2; reflexivity). split; [exact FR|]. intros [W1 W2]. split.
  - rewrite <- (same_arcs_names b b' (frame_arcs b b' FR)). exact W1.
  - assert (IN : forall n', In n' (bnodes b') -> exists n, In n (bnodes b) /\ retabled n n').
    { clear -F. induction F as [|n n' l l' R F IH]; intros q Hq; [destruct Hq|]. destruct Hq as [<-|Hq]; [exists n; split; [left; reflexivity|exact R]|].
      destruct (IH q Hq) as (z & Hz & Rz). exists z. split; [right; exact Hz|exact Rz]. }
    assert (NI : forall n, In n (bnodes b) -> exists n', In n' (bnodes b') /\ retabled n n').
    { clear -F. induction F as [|n n' l l' R F IH]; intros q Hq; [destruct Hq|]. destruct Hq as [<-|Hq]; [exists n'; split; [left; reflexivity|exact R]|].
      destruct (IH q Hq) as (z & Hz & Rz). exists z. split; [right; exact Hz|exact Rz]. }
    intros n' Hn'. destruct (IN n' Hn') as (n & Hn & (A1 & A2 & A3 & A4 & A5 & A6)). destruct (W2 n Hn) as [V1 V2 V3 V4 V5 V6].
    split; rewrite ?A1, ?A2, ?A3, ?A4.
    + exact V1. + exact V2.
    + intros p vals Hp. destruct (V3 p vals Hp) as (q & Hq & Eq & Ev). destruct (NI q Hq) as (q' & Hq' & (B1 & B2 & _)). exists q'.
      split; [exact Hq'|]. rewrite B1, B2. auto.
    + rewrite A5. exact V4.
    + destruct A6 as [->|A6]; [exact V5|exact A6].
    + exact V6.
Qed.

Lemma view_retabled h g i n a : nth_error h i = Some n -> shape a = tshape (ncpd n) -> length (data a) = prodn (shape a) ->
  frame (view (mkW h g)) = frame (view (mkW (list_set i (tabled n a) h) g)) /\
  (wf_bn (view (mkW h g)) -> wf_bn (view (mkW (list_set i (tabled n a) h) g))).
Proof.
  intros H S L. apply retabled_wf; [|reflexivity|reflexivity]. unfold view. cbn [whp wnet bnodes].
  assert (X : forall m, snapshot_node (list_set i (tabled n a) h) m = snapshot_node h m).
  { intros m. unfold snapshot_node. f_equal. apply map_ext. intros p. rewrite (parent_values_set h i n a m p H). reflexivity. }
  induction (lookup g) as [|[v j] l IH]; [constructor|]. cbn [map snd]. constructor; [|exact IH]. rewrite X, (deref_set h i n a j H).
  destruct (Nat.eq_dec j i) as [->|]; [|repeat split; left; reflexivity].
  assert (ED : deref h i = n) by (unfold deref; apply nth_error_nth, H). rewrite ED.
  unfold retabled, snapshot_node, tabled, with_cpd. cbn [nname nvalues nparents nporder ncpd tarr dn_name dn_values dn_parents dn_pdict dn_cpd].
  repeat (split; [reflexivity|]). split; [|right; exact L]. rewrite S. destruct (ncpd n); reflexivity.
Qed.

(** ** Answers are proper tables *)
Lemma query_wf {SO : SetOrder} B b t Q f : fine B b t -> snd (tmarginals t Q) = Ok f -> wf_factor (values_of b) f /\ length (data (pot f)) <= B.
Proof.
  intros F E. rewrite <- (proj2 (proj2 (proj2 (proj2 tree_by_exact)))) in E. destruct (tmarg_eq ValueError B b t Q F) as [_ F1].
  unfold tmarginals_by in E, F1. destruct (if tvalid t then (t, Ok tt) else calculate_messages_by fmul marginalize1 finvert t) as [t1 [u|e]]; [|discriminate].
  cbn [fst snd] in E, F1. destruct (find _ (tnodes t1)) as [[k c]|] eqn:EF; [|discriminate].
  apply find_some in EF as [EF _]. destruct (fine_in B b t1 k c F1 EF) as [Sc Tc].
  destruct (margs_eq ValueError B b (cvars c) (sdiff (cvars c) Q) Sc (cfac c) Tc) as [_ M].
  destruct (marginalize_by marginalize1 (cfac c) (sdiff (cvars c) Q)) as [g|]; [|discriminate]. cbn [rbind] in E. injection E as <-.
  destruct (M g eq_refl) as [Wg Ig]. destruct (normalize_spec (values_of b) g Wg) as (Wn & On & _). split; [exact Wn|].
  apply (sc_size B b (cvars c)); [exact Sc|]. split; [exact Wn|]. rewrite On. exact Ig.
Qed.

Section Track.
Context {SO : SetOrder}.
Variables (m : method) (x : exc) (B : nat) (N : bool -> bn) (D : dbnet).
Hypothesis HO : forall first, housed (N first) B.

Record track (s : mstate) : Prop := {
  tk_dbn : mdbn s = D;
  tk_net : forall first, wf_bn (slice_net s first) /\ frame (N first) = frame (slice_net s first);
  tk_tree : forall first t, mtree s = Some (first, t) -> exists bc o b, wf_bn bc /\ frame (N first) = frame bc /\
    order_or_default bc None = Ok o /\ serves bc o b t /\ frame (N first) = frame b
}.

Lemma ho_frame first b : frame (N first) = frame b -> wf_bn b -> housed b B.
Proof.
  intros F W. destruct (HO first) as [_ G M C R]. split; [exact W|exact (frame_graph _ _ F G)|exact (frame_match _ _ F M)| |].
  - rewrite <- (same_arcs_names _ _ (frame_arcs _ _ F)). exact C.
  - intros o E. apply (frame_roomy (N first)); [exact F|]. apply R. rewrite (frame_order _ _ F). exact E.
Qed.

Lemma track_same s s' : mheap s' = mheap s -> mdbn s' = mdbn s -> mtree s' = mtree s -> track s -> track s'.
Proof.
  intros E1 E2 E3 [A C F]. split; [congruence| |].
  - intros first. unfold slice_net. rewrite E1, E2. apply C.
  - rewrite E3. exact F.
Qed.

Lemma track_tree s first t : track s -> (exists bc o b, wf_bn bc /\ frame (N first) = frame bc /\
    order_or_default bc None = Ok o /\ serves bc o b t /\ frame (N first) = frame b) -> track (with_tree s (Some (first, t))).
Proof.
  intros [A C F] H. split; [exact A|exact C|]. cbn [with_tree mtree]. intros f t' E. injection E as <- <-. exact H.
Qed.

Lemma new_eq s first : track s -> new_tree_by (capped_jointree x B) s first = new_tree s first /\ track (fst (new_tree s first)).
Proof.
  intros T. destruct (tk_net s T first) as [W F]. destruct (ho_frame first _ F W) as [_ G M C R].
  unfold new_tree_by, new_tree. rewrite (create_eq _ W G M C x B None R). split; [reflexivity|].
  destruct (create_jointree (slice_net s first) None) as [t|e] eqn:E; [|exact T]. cbn [fst].
  assert (E' := E). unfold create_jointree in E'. apply rbind_ok in E' as (o & Eo & _).
  apply (track_tree s first t T). exists (slice_net s first), o, (slice_net s first). split; [exact W|]. split; [exact F|]. split; [exact Eo|].
  split; [|exact F]. apply SV_create with (order := None); assumption.
Qed.

Lemma on_eq {A} s (f g : bn -> jtree -> jtree * res A) : track s ->
  (forall first t bc o b, wf_bn bc -> frame (N first) = frame bc -> order_or_default bc None = Ok o -> serves bc o b t -> frame (N first) = frame b ->
     f (slice_net s first) t = g (slice_net s first) t /\ exists b', serves bc o b' (fst (g (slice_net s first) t)) /\ frame (N first) = frame b') ->
  on_tree s f = on_tree s g /\ track (fst (on_tree s g)).
Proof.
  intros T H. unfold on_tree. destruct (mtree s) as [[first t]|] eqn:E; [|split; [reflexivity|exact T]].
  destruct (tk_tree s T first t E) as (bc & o & b & W & F & Eo & S & F'). destruct (H first t bc o b W F Eo S F') as (EQ & b' & S' & F2).
  rewrite EQ. split; [reflexivity|]. cbn [fst]. apply (track_tree s first _ T). exists bc, o, b'. auto.
Qed.

Lemma arcs_of s first bc : track s -> frame (N first) = frame bc -> same_arcs bc (slice_net s first).
Proof. intros T F. apply frame_arcs. rewrite <- F. apply (tk_net s T). Qed.

Lemma room_of first bc o b : frame (N first) = frame bc -> order_or_default bc None = Ok o -> frame (N first) = frame b -> roomy b o B.
Proof. intros F Eo F'. apply (frame_roomy (N first)); [exact F'|]. apply (ho_room _ _ (HO first)). rewrite (frame_order _ _ F). exact Eo. Qed.

Lemma reset_on s : track s -> on_tree s (capped_reset x B) = on_tree s reset_factors /\ track (fst (on_tree s reset_factors)).
Proof.
  intros T. apply on_eq; [exact T|]. intros first t bc o b W F Eo S F'. destruct (ho_frame first bc F W) as [_ G M C _].
  destruct (tk_net s T first) as [Wn Fn]. split.
  - apply (reset_top bc W G M C o b t); [exact S|apply arcs_of; assumption|exact Wn|exact (room_of first bc o _ F Eo Fn)].
  - exists (slice_net s first). split; [|exact Fn]. apply SV_reset with (b := b); [exact S|apply arcs_of; assumption|exact Wn].
Qed.

Lemma evidence_on_eq s ev soft : track s -> on_tree s (fun b t => capped_evidence x B b ev soft t) = on_tree s (fun b t => set_evidence b ev soft t) /\
  track (fst (on_tree s (fun b t => set_evidence b ev soft t))).
Proof.
  intros T. apply on_eq; [exact T|]. intros first t bc o b W F Eo S F'. destruct (ho_frame first bc F W) as [_ G M C _].
  destruct (tk_net s T first) as [Wn Fn]. split.
  - apply (evidence_top bc W G M C o b t); [exact S|apply arcs_of; assumption|exact Wn|exact (room_of first bc o _ F Eo Fn)].
  - exists (slice_net s first). split; [|exact Fn]. apply SV_evidence with (b := b); [exact S|apply arcs_of; assumption|exact Wn].
Qed.

Lemma query_on s Q : track s -> capped_dmarginals x B s Q = dmarginals s Q /\ track (fst (dmarginals s Q)) /\
  forall f, snd (dmarginals s Q) = Ok f -> length (data (pot f)) = prodn (shape (pot f)) /\ length (data (pot f)) <= B.
Proof.
  intros T. unfold capped_dmarginals, dmarginals_by, dmarginals.
  destruct (on_eq s (fun _ t => capped_tree x B t Q) (fun _ t => tmarginals t Q) T) as [E T1].
  { intros first t bc o b W F Eo S F'. destruct (ho_frame first bc F W) as [_ G M C _]. split.
    - apply (query_top bc W G M C o b t); [exact S|exact (room_of first bc o b F Eo F')].
    - exists b. split; [|exact F']. apply SV_query, S. }
  split; [exact E|]. split; [exact T1|]. unfold on_tree. destruct (mtree s) as [[first t]|] eqn:Et; [|discriminate].
  destruct (tk_tree s T first t Et) as (bc & o & b & W & F & Eo & S & F'). destruct (ho_frame first bc F W) as [_ G M C _].
  cbn [snd]. intros f Ef. destruct (serves_inv bc W G M C o b t S) as (_ & _ & _ & FI).
  destruct (query_wf B b t Q f (FI B (room_of first bc o b F Eo F')) Ef) as [WF L]. split; [apply (wf_arr _ _ WF)|exact L].
Qed.

Lemma seq_eq c c' k k' : c = c' -> track (fst c') -> (forall s, track s -> k s = k' s /\ track (fst (k' s))) ->
  seq_calls c k = seq_calls c' k' /\ track (fst (seq_calls c' k')).
Proof. intros -> T H. destruct c' as [s [u|e]]; cbn [seq_calls fst] in *; [apply H, T|split; [reflexivity|exact T]]. Qed.

Lemma set_evidence_on s ev kw : track s -> capped_set_evidence_ m x B s ev kw = set_evidence_ m s ev kw /\ track (fst (set_evidence_ m s ev kw)).
Proof.
  intros T. unfold capped_set_evidence_, set_evidence_. destruct m.
  - apply seq_eq.
    + destruct (mt s) as [|[|k]]; [apply new_eq, T|apply new_eq, T|apply reset_on, T].
    + destruct (mt s) as [|[|k]]; [apply new_eq, T|apply new_eq, T|apply reset_on, T].
    + intros s' T'. apply evidence_on_eq, T'.
  - destruct kw; [split; [reflexivity|exact T]|]. apply seq_eq.
    + destruct (mt s) as [|[|k]]; [apply new_eq, T|apply new_eq, T|reflexivity].
    + destruct (mt s) as [|[|k]]; [apply new_eq, T|apply new_eq, T|exact T].
    + intros s' T'. apply evidence_on_eq, T'.
Qed.

Lemma table_eq s p : track s -> slice_table_by (capped_tree x B) s p = slice_table s p /\ track (fst (slice_table s p)) /\
  forall a, snd (slice_table s p) = Ok a -> length (data a) = prodn (shape a) /\ length (data a) <= B.
Proof.
  intros T. destruct (query_on s [p] T) as (E & T1 & L). unfold slice_table_by, slice_table. unfold capped_dmarginals in E. rewrite E.
  destruct (dmarginals s [p]) as [s' [f|e]]; cbn [fst snd] in *; (split; [reflexivity|]); (split; [exact T1|]); [|discriminate].
  intros a Ea. unfold get_potential in Ea. apply rbind_ok in Ea as (ix & _ & Ea). injection Ea as <-. apply L. reflexivity.
Qed.

Lemma feed_prior_eq s v p : track s -> feed_prior_by (capped_tree x B) s v p = feed_prior s v p /\ track (fst (feed_prior s v p)).
Proof.
  intros T. unfold feed_prior_by, feed_prior. destruct (dget v (lookup (dtwo (mdbn s)))) as [i|]; [|split; [reflexivity|exact T]].
  destruct (table_eq s p T) as (E & T1 & L). rewrite E. destruct (slice_table s p) as [s' [a|e]]; cbn [fst snd] in *; [|split; [reflexivity|exact T1]].
  split; [reflexivity|]. destruct (nth_error (mheap s') i) as [n|] eqn:En; [|exact T1].
  destruct (set_cpd n false a) as [n'|e] eqn:Es; [|exact T1]. cbn [fst].
  unfold set_cpd, store_table in Es. destruct (nkind n); try discriminate. destruct (list_eq_dec Nat.eq_dec (tshape (ncpd n)) (shape a)) as [ES|]; [|discriminate]. injection Es as <-.
  destruct T1 as [A C F]. split; [exact A| |exact F]. intros first. destruct (C first) as [W FR]. unfold slice_net in *. cbn [mheap mdbn].
  destruct (view_retabled (mheap s') (if first then db0 (mdbn s') else dtwo (mdbn s')) i n a En (eq_sym ES) (proj1 (L a eq_refl))) as [FR' W'].
  split; [apply W', W|]. unfold tabled in FR'. congruence.
Qed.

Lemma feed_soft_eq s v p : track s -> feed_soft_by (capped_tree x B) s v p = feed_soft s v p /\ track (fst (feed_soft s v p)).
Proof.
  intros T. unfold feed_soft_by, feed_soft. destruct (table_eq s p T) as (E & T1 & _). rewrite E.
  destruct (slice_table s p) as [s' [a|e]]; cbn [fst] in *; (split; [reflexivity|]); [|exact T1]. apply (track_same s'); [reflexivity|reflexivity|reflexivity|exact T1].
Qed.

Lemma feed_all_eq f g : (forall s v p, track s -> f s v p = g s v p /\ track (fst (g s v p))) ->
  forall l s, track s -> feed_all f l s = feed_all g l s /\ track (fst (feed_all g l s)).
Proof.
  intros H l. induction l as [|[v p] l IH]; intros s T; cbn [feed_all]; [split; [reflexivity|exact T]|].
  destruct (H s v p T) as [E T1]. apply seq_eq; [exact E|exact T1|exact IH].
Qed.

Lemma unroll_eq s : track s -> capped_unroll_ m x B s = unroll_ m s /\ track (fst (unroll_ m s)).
Proof.
  intros T. unfold capped_unroll_, unroll_. destruct m.
  - unfold prior_unroll_by. destruct (feed_all_eq _ _ feed_prior_eq (dtrans (mdbn s)) s T) as [E T1].
    apply seq_eq; [exact E|exact T1|]. intros s' T'. split; [reflexivity|]. apply (track_same s'); [reflexivity|reflexivity|reflexivity|exact T'].
  - unfold soft_unroll_by. destruct (feed_all_eq _ _ feed_soft_eq (dtrans (mdbn s)) (with_trans s [])) as [E T1].
    { apply (track_same s); [reflexivity|reflexivity|reflexivity|exact T]. }
    apply seq_eq; [exact E|exact T1|]. intros s' T'. split; [reflexivity|]. apply (track_same s'); [reflexivity|reflexivity|reflexivity|exact T'].
Qed.

Lemma flag_eq z s : track s -> (with_flag s z, @Ok unit tt) = (with_flag s z, Ok tt) /\ track (fst (with_flag s z, @Ok unit tt)).
Proof. intros T. split; [reflexivity|]. apply (track_same s); [reflexivity|reflexivity|reflexivity|exact T]. Qed.

Lemma mexec_eq s c : track s -> capped_mexec m x B s c = mexec m s c /\ track (fst (mexec m s c)).
Proof.
  intros T. destruct c as [ev kw|ev kw|Q]; cbn [capped_mexec mexec].
  - destruct (set_evidence_on s ev None T) as [E T1]. unfold dset_evidence. apply seq_eq; [exact E|exact T1|exact (flag_eq true)].
  - unfold dunroll. apply seq_eq.
    + destruct (negb (mflag s) || _); [apply set_evidence_on, T|reflexivity].
    + destruct (negb (mflag s) || _); [apply set_evidence_on, T|exact T].
    + intros s1 T1. destruct (unroll_eq s1 T1) as [E T2]. apply seq_eq; [exact E|exact T2|exact (flag_eq false)].
  - destruct (query_on s Q T) as (E & T1 & _). rewrite E. split; [reflexivity|exact T1].
Qed.

Lemma mrun_eq cs : forall s, track s -> capped_mrun m x B s cs = mrun m s cs /\ track (mrun m s cs).
Proof.
  induction cs as [|c cs IH]; intros s T; cbn [capped_mrun mrun]; [split; [reflexivity|exact T]|].
  destruct (mexec_eq s c T) as [E T1]. rewrite E. apply IH, T1.
Qed.
End Track.

Lemma track_start {SO : SetOrder} m h d B : (forall first, housed (part h d first) B) ->
  track (part h d) (mdbn (mcreate m h d)) (mcreate m h d).
Proof.
  intros HO. split; [reflexivity| |destruct m; discriminate]. intros first.
  assert (E : slice_net (mcreate m h d) first = part h d first).
  { unfold slice_net, part. destruct m; cbn [mcreate deepcopy mheap mdbn db0 dtwo]; [|reflexivity].
    destruct first; [exact (view_copied h (db0 d))|exact (view_copied h (dtwo d))]. }
  rewrite E. split; [apply (HO first)|reflexivity].
Qed.
