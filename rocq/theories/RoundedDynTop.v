(** PriorFeedbackExact in rounded arithmetic: all sessions. *)
From Verif Require Import Base BaseFacts NDArray NDArrayFacts Factor FactorFacts Exact Spec SpecFacts Order OrderSpec JoinTree TreeSpec JTBuild JTProof JTProof2 JTTop JTJunction JTHistory
  Node Network NetSpec NetFacts NetView Dynamic DynSpec DynPure DynHeap DynPrior Rounded RoundedSpec RoundedProof RoundedTables RoundedTop RoundedTree RoundedTreeSpec RoundedTreeProof RoundedTreeTop
  RoundedDyn RoundedDynSpec RoundedDynPure RoundedDynProof.

(** With the exact operations the program is that of Dynamic.v. *)
Theorem dyn_by_exact {SO : SetOrder} s ev kw Q : kw <> Some true ->
  let create := create_jointree_by fmul in let reset := reset_factors_by fmul in
  let evid := set_evidence_by fmul marginalize1 finvert in let query := tmarginals_by fmul marginalize1 finvert normalize in
  dset_evidence_by create reset evid s ev = dset_evidence PriorFeedback s ev kw /\
  dunroll_by create reset evid query s ev = dunroll PriorFeedback s ev kw /\
  dmarginals_by query s Q = dmarginals s Q.
Proof.
  intros KW create reset evid query. destruct tree_by_exact as (T1 & T2 & T3 & T4 & T5). fold create in T1. fold reset in T2. fold evid in T3. fold query in T5.
  assert (E1 : forall s first, new_tree_by create s first = new_tree s first) by (intros s' first; unfold new_tree_by, new_tree; rewrite T1; reflexivity).
  assert (E2 : forall s kw, kw <> Some true -> prior_evidence_by create reset evid s ev = set_evidence_ PriorFeedback s ev kw).
  { intros s' kw' K. unfold prior_evidence_by, set_evidence_. replace (match kw' with Some x => x | None => false end) with false by (destruct kw' as [[]|]; congruence).
    rewrite !E1. replace (on_tree s' reset) with (on_tree s' reset_factors) by (unfold on_tree; destruct (mtree s') as [[f t]|]; [rewrite T2|]; reflexivity).
    destruct (match mt s' with 0 => _ | _ => _ end) as [s1 [u|e]]; [|reflexivity]. cbn [seq_calls]. unfold on_tree. destruct (mtree s1) as [[f t]|]; [rewrite T3|]; reflexivity. }
  assert (E3 : forall s Q, dmarginals_by query s Q = dmarginals s Q) by (intros s' Q'; unfold dmarginals_by, dmarginals, on_tree; destruct (mtree s') as [[f t]|]; [rewrite T5|]; reflexivity).
  split; [unfold dset_evidence_by, dset_evidence; rewrite (E2 s None ltac:(discriminate)); reflexivity|]. split; [|apply E3].
  unfold dunroll_by, dunroll. rewrite (E2 s kw KW). destruct (if negb (mflag s) || _ then _ else _) as [s1 [u|e]]; [|reflexivity]. cbn [seq_calls].
  replace (prior_unroll_by query s1) with (unroll_ PriorFeedback s1); [reflexivity|]. unfold prior_unroll_by, unroll_. f_equal.
  assert (E4 : forall s v p, feed_prior s v p = feed_prior_by query s v p).
  { intros s' v p. unfold feed_prior, feed_prior_by, slice_table, slice_table_by. rewrite E3. reflexivity. }
  generalize (dtrans (mdbn s1)). intros l. revert s1. induction l as [|(v & p) l IH]; intros s1; [reflexivity|]. cbn [feed_all]. rewrite E4. destruct (feed_prior_by query s1 v p) as [s2 [u2|e]]; [apply IH|reflexivity].
Qed.

Section Prior.
Context {RD : Rounding} {AD : Adding} {SO : SetOrder}.
Variable h : heap.
Variable d : dbnet.
Notation b0 := (view (mkW h (db0 d))).
Notation two := (view (mkW h (dtwo d))).
Notation trans := (dtrans d).
Notation sb := (slice_bn b0 two trans).
Hypothesis TR : trackable b0 two trans.
Hypothesis OB : objects h d.

Let W2 : wf_bn two. Proof. destruct (tr_two _ _ _ TR) as (o & _ & U). apply U. Qed.
Let WI : wired b0 two trans := tr_wired _ _ _ TR.
Notation slice := (slice h d).
Notation rknows := (rknows h d).
Notation handed_table := (handed_table h d).

(** What set_evidence and queries leave alone. *)
Record rsame (s : mstate) (done : list evidence) : Prop := {
  rs_t : mt s = length done;
  rs_trans : dtrans (mdbn s) = trans;
  rs_named : named (mheap s) (dtwo (mdbn s));
  rs_kinds : forall v p, In (v, p) trans -> exists i n, dget v (lookup (dtwo (mdbn s))) = Some i /\ nth_error (mheap s) i = Some n /\ nkind n = KDiscrete;
  rs_legal : legal_evs b0 two done;
  rs_first : done = [] -> slice_net s true = b0 /\ slice_net s false = two;
  rs_two : done <> [] -> slice done (slice_net s false);
  rs_tree : 2 <= length done -> rhas_tree s false two
}.

Lemma rsame_rest s s' done : rsame s done -> same_rest s s' -> (2 <= length done -> rhas_tree s' false two) -> rsame s' done.
Proof.
  intros P SR T. assert (SN := fun first => slice_net_same s s' first SR). destruct SR as (E1 & E2 & E3 & E4 & E5). destruct P.
  constructor; try rewrite E1; try rewrite E2; try rewrite E3; try rewrite !SN; auto.
Qed.
Lemma rsame_flag s done x : rsame s done -> rsame (with_flag s x) done.
Proof. intros []. constructor; assumption. Qed.

Lemma rnet_of s done : rsame s done -> slice done (slice_net s (is_nil done)).
Proof. intros P. destruct done as [|e done]; cbn [is_nil]; [apply (rs_first _ _ P eq_refl)|apply (rs_two _ _ P); discriminate]. Qed.

Lemma rprepare s done : rsame s done ->
  exists s', match mt s with 0 => new_tree_by rounded_jointree s true | 1 => new_tree_by rounded_jointree s false | _ => on_tree s rounded_reset end = (s', Ok tt) /\
    rhas_tree s' (is_nil done) (slice_base b0 two (length done)) /\ same_rest s s'.
Proof.
  intros P. assert (N := rnet_of s done P). rewrite (rs_t _ _ P). destruct done as [|e [|e' done]]; cbn [length] in *.
  - apply (rcreated_has h d TR s [] _ eq_refl N).
  - apply (rcreated_has h d TR s [e] _ eq_refl N).
  - apply (rreset_has h d TR s (e :: e' :: done) _ (rs_tree _ _ P ltac:(cbn; lia)) N eq_refl).
Qed.

Lemma revidence s done ev : rsame s done -> fitting_evidence b0 two done (given ev) ->
  exists s', rprior_evidence s ev = (s', Ok tt) /\ rknows s' done (given ev) /\ same_rest s s'.
Proof.
  intros P F. destruct (rprepare s done P) as (s1 & E1 & K1 & R1). unfold rprior_evidence, prior_evidence_by. rewrite E1. cbn [seq_calls].
  destruct (rset_knows h d TR s1 done (given ev) _ K1 (rnet_of s done P) F) as (s2 & E2 & K2 & R2); [apply slice_net_same, R1|].
  exists s2. split; [exact E2|]. split; [exact K2|]. exact (same_rest_trans _ _ _ R1 R2).
Qed.

Lemma rany s done ev : rsame s done ->
  rhas_tree (fst (rprior_evidence s ev)) (is_nil done) (slice_base b0 two (length done)) /\ same_rest s (fst (rprior_evidence s ev)).
Proof.
  intros P. destruct (rprepare s done P) as (s1 & E1 & K1 & R1). unfold rprior_evidence, prior_evidence_by. rewrite E1. cbn [seq_calls].
  destruct (rany_has s1 (is_nil done) _ (given ev) K1) as [H R]. split; [exact H|]. exact (same_rest_trans _ _ _ R1 R).
Qed.

(** Feeding back one table. *)
Lemma rfeed s done e v p B : rknows s done e -> fitting_evidence b0 two done e -> In (v, p) trans ->
  named (mheap s) (dtwo (mdbn s)) ->
  (forall v p, In (v, p) trans -> exists i n, dget v (lookup (dtwo (mdbn s))) = Some i /\ nth_error (mheap s) i = Some n /\ nkind n = KDiscrete) ->
  slice_net s false = B -> same_arcs B two -> wf_bn B -> bvars B = bvars two ->
  exists s' a, feed_prior_by rounded_tree s v p = (s', Ok tt) /\ rknows s' done e /\ handed_table done e (v, p) a /\
    named (mheap s') (dtwo (mdbn s')) /\
    (forall v p, In (v, p) trans -> exists i n, dget v (lookup (dtwo (mdbn s'))) = Some i /\ nth_error (mheap s') i = Some n /\ nkind n = KDiscrete) /\
    slice_net s' false = fed B [(v, a)] /\
    mdbn s' = mdbn s /\ mt s' = mt s /\ mflag s' = mflag s.
Proof.
  intros K F I NM KD SN SA WB BV. unfold feed_prior_by. destruct (KD v p I) as (i & n & D & H & KK). rewrite D.
  destruct (rknows_table h d TR s done e v p K F I) as (a & E1 & HT). rewrite E1, H. unfold set_cpd. rewrite KK. unfold store_table.
  destruct (list_eq_dec Nat.eq_dec (tshape (ncpd n)) (shape a)) as [ES|NS].
  - eexists. exists a. split; [reflexivity|]. cbn [mheap mdbn mt mflag].
    split; [destruct K as (B' & t0 & b' & t & X); exists B', t0, b', t; exact X|]. split; [exact HT|].
    split; [exact (named_set _ _ _ _ _ H NM)|]. split.
    { intros v' p' I'. destruct (KD v' p' I') as (i' & n' & D' & H' & KK'). exists i'.
      destruct (Nat.eq_dec i' i) as [->|Ni].
      - eexists. split; [exact D'|]. rewrite nth_error_list_set, H'. destruct (Nat.eq_dec i i); [|congruence]. split; [reflexivity|exact KK].
      - exists n'. split; [exact D'|]. rewrite nth_error_list_set. destruct (Nat.eq_dec i' i); [congruence|]. auto. }
    split; [|auto]. unfold slice_net in *. cbn [mheap mdbn]. rewrite <- SN. exact (view_set _ _ v i n _ NM D H).
  - exfalso. apply NS. rewrite (proj1 HT). cbn [fst].
    assert (X : In (snapshot_node (mheap s) n) (bnodes B)).
    { rewrite <- SN. unfold slice_net, view. cbn [bnodes]. apply in_map_iff. exists (v, i). split; [|apply dget_In, D]. cbn [snd whp]. rewrite (deref_ok _ _ _ H). reflexivity. }
    assert (Nn : nname n = v). { destruct NM as [_ NM]. destruct (NM v i D) as (n' & Hn' & En'). rewrite H in Hn'. injection Hn' as <-. exact En'. }
    assert (W := wn_shape _ _ (wb_nodes _ WB _ X)).
    assert (PA : dn_parents (snapshot_node (mheap s) n) = []).
    { assert (In (dn_name (snapshot_node (mheap s) n), map fst (dn_parents (snapshot_node (mheap s) n))) (map (fun n => (dn_name n, map fst (dn_parents n))) (bnodes two))) as Y.
      { rewrite <- SA. exact (in_map (fun n => (dn_name n, map fst (dn_parents n))) _ _ X). }
      apply in_map_iff in Y as (m' & Y1 & Y2). injection Y1 as Y1 Y3. rewrite (root_unique b0 two trans WI W2 v p m' I Y2 (eq_trans Y1 Nn)) in Y3.
      apply (map_eq_nil fst). symmetry. exact Y3. }
    rewrite PA in W. cbn in W.
    replace (tshape (ncpd n)) with (shape (tarr (ncpd n))) by (destruct (ncpd n); reflexivity). rewrite W.
    assert (V : nvalues n = values_of two v); [|congruence].
    assert (Y : In (v, nvalues n) (bvars two)). { rewrite <- BV. unfold bvars. apply in_map_iff. exists (snapshot_node (mheap s) n). split; [cbn; rewrite Nn; reflexivity|exact X]. }
    apply (in_bvars two W2) in Y as [Y _]. congruence.
Qed.

Lemma ralike_fits B done e v p a : same_arcs B two -> wf_bn B -> bvars B = bvars two -> In (v, p) trans -> handed_table done e (v, p) a -> fits B [(v, a)].
Proof.
  intros SA WB BV I (HS & HL & _) n a' Hn D. cbn in D. destruct (String.eqb_spec (dn_name n) v) as [En|]; [|discriminate]. injection D as <-.
  assert (PA : dn_parents n = []).
  { assert (In (dn_name n, map fst (dn_parents n)) (map (fun n => (dn_name n, map fst (dn_parents n))) (bnodes two))) as Y.
    { rewrite <- SA. exact (in_map (fun n => (dn_name n, map fst (dn_parents n))) _ _ Hn). }
    apply in_map_iff in Y as (m' & Y1 & Y2). injection Y1 as Y1 Y3. rewrite (root_unique b0 two trans WI W2 v p m' I Y2 (eq_trans Y1 En)) in Y3.
    apply (map_eq_nil fst). symmetry. exact Y3. }
  assert (V : dn_values n = values_of two v).
  { assert (Y : In (dn_name n, dn_values n) (bvars two)). { rewrite <- BV. unfold bvars. exact (in_map (fun n => (dn_name n, dn_values n)) _ _ Hn). }
    apply (in_bvars two W2) in Y as [Y _]. congruence. }
  rewrite PA, HS, HL. cbn. rewrite V. split; [reflexivity|lia].
Qed.

Lemma rfeed_all done e l : fitting_evidence b0 two done e -> incl l trans -> NoDup (map fst l) -> forall s B, rknows s done e ->
  named (mheap s) (dtwo (mdbn s)) ->
  (forall v p, In (v, p) trans -> exists i n, dget v (lookup (dtwo (mdbn s))) = Some i /\ nth_error (mheap s) i = Some n /\ nkind n = KDiscrete) ->
  slice_net s false = B -> same_arcs B two -> wf_bn B -> bvars B = bvars two ->
  exists s' T, feed_all (feed_prior_by rounded_tree) l s = (s', Ok tt) /\ rknows s' done e /\ (forall vp, In vp l -> handed_table done e vp (T vp)) /\
    named (mheap s') (dtwo (mdbn s')) /\
    (forall v p, In (v, p) trans -> exists i n, dget v (lookup (dtwo (mdbn s'))) = Some i /\ nth_error (mheap s') i = Some n /\ nkind n = KDiscrete) /\
    slice_net s' false = fed B (map (fun vp => (fst vp, T vp)) l) /\
    mdbn s' = mdbn s /\ mt s' = mt s /\ mflag s' = mflag s.
Proof.
  intros F. induction l as [|(v & p) l IH]; intros I ND s B K NM KD SN SA WB BV.
  { exists s, (fun _ => mkArr [] []). cbn [feed_all map]. rewrite fed_nil. split; [reflexivity|]. split; [exact K|]. split; [intros vp []|]. auto 10. }
  cbn [map fst] in ND. inversion ND as [|? ? Nv ND']; subst x l0.
  assert (Iv : In (v, p) trans) by (apply I; left; reflexivity).
  destruct (rfeed s done e v p B K F Iv NM KD SN SA WB BV) as (s1 & a & E1 & K1 & HT & NM1 & KD1 & SN1 & A1 & A2 & A3).
  destruct (IH (fun x Hx => I x (or_intror Hx)) ND' s1 (fed B [(v, a)]) K1 NM1 KD1 SN1) as (s2 & T & E2 & K2 & HT2 & NM2 & KD2 & SN2 & B1 & B2 & B3).
  - eapply same_arcs_trans; [apply same_arcs_sym, fed_arcs|exact SA].
  - apply fed_wf; [exact WB|]. eapply ralike_fits; eassumption.
  - rewrite fed_bvars. exact BV.
  - exists s2, (fun vp => if String.eqb (fst vp) v then a else T vp). cbn [feed_all]. rewrite E1. cbn [seq_calls]. split; [exact E2|]. split; [exact K2|]. split.
    { intros (v' & p') [H|H]; [injection H as <- <-; cbn [fst]; rewrite String.eqb_refl; exact HT|]. cbn [fst]. rewrite eqb_neq_s; [apply HT2, H|]. intros ->. apply Nv, in_map_iff. exists (v, p'). auto. }
    split; [exact NM2|]. split; [exact KD2|]. split; [|repeat split; congruence]. rewrite SN2. cbn [map fst snd]. rewrite String.eqb_refl.
    rewrite fed_cons; [|unfold dkeys; rewrite map_map; exact Nv]. do 2 f_equal. apply map_ext_in. intros (v' & p') H. cbn [fst]. rewrite eqb_neq_s; [reflexivity|]. intros ->. apply Nv, in_map_iff. exists (v, p'). auto.
Qed.

Lemma runroll s done e : rsame s done -> fitting_evidence b0 two done e -> rknows s done e ->
  exists s', prior_unroll_by rounded_tree s = (s', Ok tt) /\ rsame s' (e :: done) /\ rknows s' done e /\ mflag s' = mflag s.
Proof.
  intros P F K. unfold prior_unroll_by. rewrite (rs_trans _ _ P). remember (slice_net s false) as B eqn:EB.
  assert (SB : B = two \/ exists T, B = with_tables two trans T).
  { destruct done as [|x done]; [left; subst B; apply (rs_first _ _ P eq_refl)|right]. destruct (rs_two _ _ P ltac:(discriminate)) as (T & E & _). exists T. congruence. }
  assert (SA : same_arcs B two). { destruct SB as [->|(T & ->)]; [reflexivity|apply same_arcs_sym, fed_arcs]. }
  assert (WB : wf_bn B). { destruct done as [|x done]; [destruct (rs_first _ _ P eq_refl) as [_ E]; rewrite <- EB in E; rewrite E; exact W2|]. eapply (slice_wf' h d TR). rewrite EB. apply (rs_two _ _ P). discriminate. }
  assert (BV : bvars B = bvars two). { destruct SB as [->|(T & ->)]; [reflexivity|apply fed_bvars]. }
  destruct (rfeed_all done e trans F (incl_refl _) (wi_nodup _ _ _ WI) s B K (rs_named _ _ P) (rs_kinds _ _ P) (eq_sym EB) SA WB BV)
    as (s1 & T & E1 & K1 & HT & NM1 & KD1 & SN1 & A1 & A2 & A3).
  rewrite E1. cbn [seq_calls]. exists (tick s1). split; [reflexivity|].
  assert (KT : rknows (tick s1) done e) by exact K1.
  split; [|auto]. constructor.
  - cbn. rewrite A2, (rs_t _ _ P). reflexivity.
  - cbn. rewrite A1. apply P.
  - exact NM1.
  - exact KD1.
  - split; [exact F|apply P].
  - discriminate.
  - intros _. change (slice_net (tick s1) false) with (slice_net s1 false). exists T. split; [|exact HT]. rewrite SN1. destruct SB as [->|(T' & ->)]; [reflexivity|].
    unfold with_tables. apply fed_again. unfold dkeys. rewrite !map_map. cbn. auto.
  - intros L. destruct done as [|e' done]; [cbn in L; lia|]. apply (rknows_has h d) in KT. exact KT.
Qed.

(** The invariant of sessions. *)
Record rinv (s : mstate) (done : list evidence) (p : waiting) (sh : option (list evidence)) : Prop := {
  ri_same : rsame s done;
  ri_flag : mflag s = match p with Nothing => false | _ => true end;
  ri_pending : forall e, p = Pending e -> sh = Some (e :: done);
  ri_shown : match sh with
             | None => True
             | Some [] => False
             | Some (e :: evs) => fitting_evidence b0 two evs e /\ legal_evs b0 two evs /\ (evs = done \/ done = e :: evs) /\ rknows s evs e
             end
}.

Lemma rcreate_inv : rinv (rdcreate h d) [] Nothing None.
Proof.
  unfold rdcreate, mcreate, deepcopy. fold (copied h). constructor; [|reflexivity|discriminate|exact I].
  constructor; cbn [mt mdbn mheap dtrans dtwo db0].
  - reflexivity.
  - reflexivity.
  - apply named_copied, consistent_named, OB.
  - intros v p I. destruct (ob_discrete _ _ OB v p I) as (i & n & [D H] & K). cbn in D, H. exists (i + length h), (shift_node (length h) n).
    cbn [shift_net lookup]. rewrite dget_shift, D. rewrite nth_copied, H. auto.
  - exact I.
  - intros _. unfold slice_net. cbn [mheap mdbn db0 dtwo]. split; apply view_copied.
  - congruence.
  - cbn. lia.
Qed.

Lemma rsame_evidence s s' done : rsame s done -> same_rest s s' -> rhas_tree s' (is_nil done) (slice_base b0 two (length done)) -> rsame s' done.
Proof. intros P R T. apply (rsame_rest s s' done P R). intros L. destruct done; [cbn in L; lia|exact T]. Qed.

Lemma rfailed_inv s done p sh ev s' : rinv s done p sh -> s' = fst (rprior_evidence s ev) -> rinv s' done (spoil p) None.
Proof.
  intros V ->. destruct (rany s done ev (ri_same _ _ _ _ V)) as [T R]. constructor.
  - exact (rsame_evidence _ _ _ (ri_same _ _ _ _ V) R T).
  - destruct R as (_ & _ & _ & -> & _). rewrite (ri_flag _ _ _ _ V). destruct p; reflexivity.
  - destruct p; discriminate.
  - exact I.
Qed.

Lemma rknows_flag s x evs e : rknows s evs e -> rknows (with_flag s x) evs e.
Proof. intros (B & t0 & b' & t & X). exists B, t0, b', t. exact X. Qed.

Theorem rounded_sessions s done p sh : rsession (fitting_evidence b0 two) h d s done p sh -> rinv s done p sh.
Proof.
  induction 1 as [|s done p sh ev S IH F|s done p sh ev S IH W F|s done e sh S IH|s done p sh Q S IH|s done p sh ev x S IH E|s done p sh ev x S IH W E].
  - exact rcreate_inv.
  - assert (P := ri_same _ _ _ _ IH). destruct (revidence s done ev P F) as (s1 & E1 & K1 & R1).
    unfold rdset_evidence, dset_evidence_by. fold rprior_evidence. rewrite E1. cbn [seq_calls fst]. constructor.
    + apply rsame_flag, (rsame_evidence s); [exact P|exact R1|]. eapply (rknows_has h d), K1.
    + reflexivity.
    + intros e E. injection E as <-. reflexivity.
    + split; [exact F|]. split; [apply P|]. split; [left; reflexivity|]. apply rknows_flag, K1.
  - assert (P := ri_same _ _ _ _ IH). destruct (revidence s done ev P F) as (s1 & E1 & K1 & R1).
    unfold rdunroll, dunroll_by. fold rprior_evidence. replace (negb (mflag s) || match ev with Some _ => true | None => false end) with true.
    2: { rewrite (ri_flag _ _ _ _ IH). destruct W as [->|W]; [reflexivity|]. destruct ev; [|congruence]. destruct p; reflexivity. }
    rewrite E1. cbn [seq_calls]. assert (P1 : rsame s1 done) by (apply (rsame_evidence s); [exact P|exact R1|eapply (rknows_has h d), K1]).
    destruct (runroll s1 done (given ev) P1 F K1) as (s2 & E2 & P2 & K2 & F2). rewrite E2. cbn [seq_calls fst]. constructor.
    + apply rsame_flag, P2.
    + reflexivity.
    + discriminate.
    + split; [exact F|]. split; [apply P1|]. split; [right; reflexivity|]. apply rknows_flag, K2.
  - assert (P := ri_same _ _ _ _ IH). unfold rdunroll, dunroll_by. rewrite (ri_flag _ _ _ _ IH). cbn [negb orb seq_calls].
    assert (SH := ri_pending _ _ _ _ IH e eq_refl). subst sh. destruct (ri_shown _ _ _ _ IH) as (F & L & _ & K).
    destruct (runroll s done e P F K) as (s2 & E2 & P2 & K2 & F2). rewrite E2. cbn [seq_calls fst]. constructor.
    + apply rsame_flag, P2.
    + reflexivity.
    + discriminate.
    + split; [exact F|]. split; [exact L|]. split; [right; reflexivity|]. apply rknows_flag, K2.
  - assert (P := ri_same _ _ _ _ IH). assert (R := rquery_rest s Q). constructor.
    + apply (rsame_rest s); [exact P|exact R|]. intros L. apply rquery_has, P, L.
    + destruct R as (_ & _ & _ & -> & _). apply IH.
    + apply IH.
    + assert (X := ri_shown _ _ _ _ IH). destruct sh as [[|e evs]|]; [exact X| |exact X]. destruct X as (X1 & X2 & X3 & X4). repeat (split; [assumption|]).
      rewrite (rquery_knows h d TR s evs e Q X4 X1). exact X4.
  - apply (rfailed_inv s done p sh ev); [exact IH|]. unfold rdset_evidence, dset_evidence_by in *. fold rprior_evidence in *. destruct (rprior_evidence s ev) as [s1 [u|y]]; [discriminate|reflexivity].
  - apply (rfailed_inv s done p sh ev); [exact IH|]. unfold rdunroll, dunroll_by. fold rprior_evidence. replace (negb (mflag s) || match ev with Some _ => true | None => false end) with true.
    2: { rewrite (ri_flag _ _ _ _ IH). destruct W as [->|W]; [reflexivity|]. destruct ev; [|congruence]. destruct p; reflexivity. }
    destruct (rprior_evidence s ev) as [s1 [u|y]]; [discriminate|reflexivity].
Qed.

(** Legal evidence is accepted, and unroll succeeds. *)
Theorem rounded_succeeds s done p sh ev : rsession (fitting_evidence b0 two) h d s done p sh -> fitting_evidence b0 two done (given ev) ->
  snd (rdset_evidence s ev) = Ok tt /\ (p <> Spoiled \/ ev <> None -> snd (rdunroll s ev) = Ok tt).
Proof.
  intros S F. assert (IH := rounded_sessions _ _ _ _ S). assert (P := ri_same _ _ _ _ IH). destruct (revidence s done ev P F) as (s1 & E1 & K1 & R1). split.
  - unfold rdset_evidence, dset_evidence_by. fold rprior_evidence. rewrite E1. reflexivity.
  - intros W. unfold rdunroll, dunroll_by. fold rprior_evidence. destruct (negb (mflag s) || match ev with Some _ => true | None => false end) eqn:G.
    + rewrite E1. cbn [seq_calls]. assert (P1 : rsame s1 done) by (apply (rsame_evidence s); [exact P|exact R1|eapply (rknows_has h d), K1]).
      destruct (runroll s1 done (given ev) P1 F K1) as (s2 & E2 & _). rewrite E2. reflexivity.
    + apply orb_false_iff in G as [G1 G2]. rewrite (ri_flag _ _ _ _ IH) in G1. destruct p as [|e|]; [discriminate| |destruct W as [W|W]; [congruence|destruct ev; [discriminate|congruence]]]. cbn [seq_calls].
      assert (SH := ri_pending _ _ _ _ IH e eq_refl). subst sh. destruct (ri_shown _ _ _ _ IH) as (F' & L & _ & K).
      destruct (runroll s done e P F' K) as (s2 & E2 & _). rewrite E2. reflexivity.
Qed.

(** The answers, and the time. *)
Theorem rounded_answers s done p e evs n Q : rsession (fitting_evidence b0 two) h d s done p (Some (e :: evs)) ->
  In n (bnodes (slice_base b0 two (length evs))) -> NoDup Q -> incl Q (dn_name n :: map fst (dn_parents n)) ->
  exists f, rdmarginals s Q = (s, Ok f) /\ reports (slice_base b0 two (length evs)) f Q (potential_at f) /\
    forall q, is_inst (slice_base b0 two (length evs)) Q q -> close (filter_errors b0 two trans evs Q e) (posterior (sb evs) e q) (potential_at f q).
Proof.
  intros S Hn ND I. destruct (ri_shown _ _ _ _ (rounded_sessions _ _ _ _ S)) as (F & L & _ & K).
  destruct (rknows_answer h d TR s evs e n Q K F Hn ND I) as (B & f & SB & Ef & R & C). exists f. split; [exact Ef|]. split.
  - destruct R as (R1 & R2 & R3 & R4 & R5 & R6 & R7). split; [exact R1|]. split; [exact R2|].
    split; [intros v Hv; rewrite <- (slice_values' h d evs B v SB); apply R3, Hv|]. split; [exact R4|].
    split; [rewrite R5; apply map_ext; intros v; rewrite (slice_values' h d evs B v SB); reflexivity|]. split; [exact R6|]. intros q _. reflexivity.
  - intros q (Q1 & Q2 & Q3). unfold filter_errors. destruct (slice_fitting h d evs B e SB F) as [EV _]. eapply close_trans; [apply posterior_close, (slice_mass h d TR evs B e SB EV)|].
    apply C. split; [exact Q1|]. split; [exact Q2|]. intros v x Hx. rewrite (slice_values' h d evs B v SB). apply Q3, Hx.
Qed.

Theorem rounded_time s done p sh : rsession (fitting_evidence b0 two) h d s done p sh -> mt s = length done.
Proof. intros S. apply (ri_same _ _ _ _ (rounded_sessions _ _ _ _ S)). Qed.
End Prior.
