(** PriorFeedbackExact computes with the networks of DynPure.v. *)
From Verif Require Import Base BaseFacts NDArray NDArrayFacts Factor FactorFacts Exact Spec SpecFacts Order OrderSpec JoinTree TreeSpec JTBuild JTProof JTProof2 JTTop JTJunction JTHistory
  Node Network NetSpec NetFacts NetView Dynamic DynSpec DynPure DynHeap.

(** ** One variable's table *)
Lemma reports_table b f v ev : wf_bn b -> In v (bnames b) -> reports b f [v] (posterior b ev) -> pot f = prior_table b ev v.
Proof.
  intros WB Hv R. assert (D := reports_single b WB f v ev R Hv). assert (O := reports_order1 b f v _ R).
  destruct R as (_ & _ & _ & _ & S & _). rewrite O in S. unfold prior_table. destruct (pot f) as [sh da]. cbn in *. congruence.
Qed.

Lemma potential_whole b f vs P : reports b f vs P -> get_potential f [] = Ok (pot f).
Proof.
  intros (_ & _ & V & _). unfold get_potential. rewrite (mapM_total _ (fun v => seq 0 (length (match dget v (fvals f) with Some l => l | None => [] end)))); [reflexivity|].
  intros v Hv. unfold dget_err. rewrite (V v Hv). reflexivity.
Qed.

Section Trees.
Context {SO : SetOrder}.

Lemma single_answers b' t k v : reaches b' t k -> In v (bnames b') -> answers t [v].
Proof.
  intros R Hv. destruct (history _ _ _ R) as [(r & sv & J) _]. apply answers_in_clique. exact (name_in_clique b' t r sv v J Hv).
Qed.

Lemma family_answers b' t k n Q : reaches b' t k -> In n (bnodes b') -> incl Q (dn_name n :: map fst (dn_parents n)) -> answers t Q.
Proof.
  intros R Hn I. destruct (history _ _ _ R) as [(r & sv & J) _]. apply answers_in_clique.
  destruct (jo_fam _ _ _ _ J (family n) (in_map _ _ _ Hn)) as (k' & E). unfold home in E.
  destruct (find _ (vars_of t)) as [[k'' c]|] eqn:EF; [|discriminate]. cbn in E. injection E as ->.
  apply find_some in EF as [F1 F2]. cbn [snd] in F2. apply subset_spec in F2.
  exists k'. split.
  - intros w Hw. unfold cvo. rewrite (In_dget k' c); [apply F2, I, Hw| |exact F1]. rewrite vars_keys. apply J.
  - rewrite <- vars_keys. apply in_map_iff. exists (k', c). auto.
Qed.

Lemma tree_table b' t b ev v : reaches b' t (Some (b, ev, false)) -> wf_bn b -> In v (bnames b') -> In v (bnames b) ->
  exists f, snd (tmarginals t [v]) = Ok f /\ get_potential f [] = Ok (prior_table b ev v).
Proof.
  intros R WB Hv' Hv. destruct (history_marginals b' t b ev false [v] R) as (ev' & f & -> & E & Rf).
  - constructor; [tauto|constructor].
  - exact (single_answers _ _ _ _ R Hv').
  - exists f. split; [exact E|]. rewrite (potential_whole b f _ _ Rf). f_equal. apply reports_table; assumption.
Qed.

Lemma same_arcs_refl b : same_arcs b b. Proof. reflexivity. Qed.
Lemma same_arcs_sym b b' : same_arcs b b' -> same_arcs b' b. Proof. unfold same_arcs. congruence. Qed.
Lemma same_arcs_trans b1 b2 b3 : same_arcs b1 b2 -> same_arcs b2 b3 -> same_arcs b1 b3. Proof. unfold same_arcs. congruence. Qed.
Lemma same_arcs_names b b' : same_arcs b b' -> bnames b = bnames b'.
Proof. intros H. apply (f_equal (map fst)) in H. rewrite !map_map in H. exact H. Qed.

(** The tree of a slice, and what it knows. *)
Definition has_tree (s : mstate) (first : bool) (b : bn) : Prop :=
  exists t b' k, mtree s = Some (first, t) /\ same_arcs b' b /\ reaches b' t k.
Definition tree_knows (s : mstate) (first : bool) (b : bn) (e : evidence) : Prop :=
  exists t b', mtree s = Some (first, t) /\ same_arcs b' b /\ reaches b' t (Some (b, e, false)).

Lemma knows_has s first b e : tree_knows s first b e -> has_tree s first b.
Proof. intros (t & b' & E & SA & R). exists t, b', (Some (b, e, false)). auto. Qed.

(** Everything but the tree. *)
Definition same_rest (s s' : mstate) : Prop :=
  mheap s' = mheap s /\ mdbn s' = mdbn s /\ mt s' = mt s /\ mflag s' = mflag s /\ mtrans s' = mtrans s.
Lemma same_rest_refl s : same_rest s s. Proof. repeat split. Qed.
Lemma same_rest_trans s1 s2 s3 : same_rest s1 s2 -> same_rest s2 s3 -> same_rest s1 s3.
Proof. intros (A1 & A2 & A3 & A4 & A5) (B1 & B2 & B3 & B4 & B5). repeat split; congruence. Qed.
Lemma same_rest_tree s x : same_rest s (with_tree s x). Proof. repeat split. Qed.
Lemma slice_net_same s s' first : same_rest s s' -> slice_net s' first = slice_net s first.
Proof. intros (A1 & A2 & _). unfold slice_net. rewrite A1, A2. reflexivity. Qed.

Lemma set_knows s first b e : has_tree s first b -> wf_bn b -> nonneg_bn b -> ev_ok b e -> incl (dkeys e) (bnames b) -> slice_net s first = b ->
  exists s', on_tree s (fun b t => set_evidence b e false t) = (s', Ok tt) /\ tree_knows s' first b e /\ same_rest s s'.
Proof.
  intros (t & b' & k & E & SA & R) WB NN EV K N. unfold on_tree. rewrite E, N.
  destruct (calls_succeed b' t _ b e R SA WB NN EV K) as (O & _). exists (with_tree s (Some (first, fst (set_evidence b e false t)))).
  rewrite O. split; [reflexivity|]. split; [|apply same_rest_tree].
  exists (fst (set_evidence b e false t)), b'. split; [reflexivity|]. split; [exact SA|]. exact (R_evidence b' b e t _ R SA WB NN EV K).
Qed.

Lemma reset_knows s first b : has_tree s first b -> wf_bn b -> nonneg_bn b -> slice_net s first = b ->
  exists s', on_tree s reset_factors = (s', Ok tt) /\ tree_knows s' first b [] /\ same_rest s s'.
Proof.
  intros (t & b' & k & E & SA & R) WB NN N. unfold on_tree. rewrite E, N.
  destruct (calls_succeed b' t _ b [] R SA WB NN) as (_ & O & _); [split; [constructor|intros v e []]|intros v []|].
  exists (with_tree s (Some (first, fst (reset_factors b t)))).
  rewrite O. split; [reflexivity|]. split; [|apply same_rest_tree].
  exists (fst (reset_factors b t)), b'. split; [reflexivity|]. split; [exact SA|]. exact (R_reset b' b t _ R SA WB NN).
Qed.

Lemma any_has s first b e soft : has_tree s first b ->
  has_tree (fst (on_tree s (fun b t => set_evidence b e soft t))) first b /\ same_rest s (fst (on_tree s (fun b t => set_evidence b e soft t))).
Proof.
  intros (t & b' & k & E & SA & R). unfold on_tree. rewrite E. split; [|apply same_rest_tree].
  eexists _, b', None. split; [reflexivity|]. split; [exact SA|]. eapply R_any, R.
Qed.

Lemma query_knows s first b e Q : tree_knows s first b e -> tree_knows (fst (dmarginals s Q)) first b e.
Proof.
  intros (t & b' & E & SA & R). unfold dmarginals, on_tree. rewrite E. eexists _, b'. split; [reflexivity|]. split; [exact SA|]. apply R_query, R.
Qed.
Lemma query_has s first b Q : has_tree s first b -> has_tree (fst (dmarginals s Q)) first b.
Proof.
  intros (t & b' & k & E & SA & R). unfold dmarginals, on_tree. rewrite E. eexists _, b', k. split; [reflexivity|]. split; [exact SA|]. apply R_query, R.
Qed.
Lemma query_rest s Q : same_rest s (fst (dmarginals s Q)).
Proof. unfold dmarginals, on_tree. destruct (mtree s) as [[first t]|]; repeat split. Qed.

Lemma created_knows s first b : slice_net s first = b -> suited b -> nonneg_bn b ->
  exists s', new_tree s first = (s', Ok tt) /\ tree_knows s' first b [] /\ same_rest s s'.
Proof.
  intros N (o & EO & U) NN. unfold new_tree. rewrite N. destruct (create_ok b o None U NN EO) as (t & r & sv & E & J & V & L). rewrite E.
  eexists. split; [reflexivity|]. split; [|apply same_rest_tree].
  exists t, b. split; [reflexivity|]. split; [reflexivity|]. eapply R_create; eassumption.
Qed.

(** The answers. *)
Lemma knows_table s first b e v : tree_knows s first b e -> wf_bn b -> In v (bnames b) ->
  exists s', slice_table s v = (s', Ok (prior_table b e v)) /\ tree_knows s' first b e /\ same_rest s s'.
Proof.
  intros K WB Hv. assert (K' := query_knows s first b e [v] K). assert (R' := query_rest s [v]). unfold slice_table.
  destruct K as (t & b' & E & SA & R). destruct (tree_table b' t b e v R WB) as (f & Ef & G); [rewrite (same_arcs_names _ _ SA); exact Hv|exact Hv|].
  destruct (dmarginals s [v]) as [s' r] eqn:D. cbn [fst] in *. exists s'. assert (r = Ok f).
  { unfold dmarginals, on_tree in D. rewrite E in D. injection D as _ <-. exact Ef. }
  subst r. rewrite G. auto.
Qed.

Lemma knows_answer s first b e Q n : tree_knows s first b e -> In n (bnodes b) -> NoDup Q -> incl Q (dn_name n :: map fst (dn_parents n)) ->
  exists f, snd (dmarginals s Q) = Ok f /\ reports b f Q (posterior b e).
Proof.
  intros (t & b' & E & SA & R) Hn ND I.
  assert (In (dn_name n, map fst (dn_parents n)) (map (fun n => (dn_name n, map fst (dn_parents n))) (bnodes b'))) as Hn'.
  { rewrite SA. exact (in_map (fun n => (dn_name n, map fst (dn_parents n))) _ _ Hn). }
  apply in_map_iff in Hn' as (n' & En & Hn'). injection En as E1 E2. rewrite <- E1, <- E2 in I.
  destruct (history_marginals b' t b e false Q R ND (family_answers b' t _ n' Q R Hn' I)) as (ev' & f & -> & Ef & Rf).
  exists f. split; [|exact Rf]. unfold dmarginals, on_tree. rewrite E. exact Ef.
Qed.
End Trees.

Section Prior.
Context {SO : SetOrder}.
Variable h : heap.
Variable d : dbnet.
Notation b0 := (view (mkW h (db0 d))).
Notation two := (view (mkW h (dtwo d))).
Notation trans := (dtrans d).
Notation sb := (slice_bn b0 two trans).
Hypothesis TR : trackable b0 two trans.
Hypothesis OB : objects h d.

Let W0 : wf_bn b0. Proof. destruct (tr_b0 _ _ _ TR) as (o & _ & U). apply U. Qed.
Let W2 : wf_bn two. Proof. destruct (tr_two _ _ _ TR) as (o & _ & U). apply U. Qed.
Let WI : wired b0 two trans := tr_wired _ _ _ TR.

Lemma sb_wf evs : wf_bn (sb evs). Proof. apply slice_wf; assumption. Qed.
Lemma sb_nonneg evs : legal_evs b0 two evs -> nonneg_bn (sb evs).
Proof. intros L. apply slice_nonneg; try assumption; apply TR. Qed.
Lemma sb_suited evs : suited (sb evs).
Proof.
  destruct evs as [|e evs]; [exact (tr_b0 _ _ _ TR)|]. destruct (tr_two _ _ _ TR) as (o & EO & U). exists o. cbn [slice_bn]. rewrite fed_order. split; [exact EO|].
  apply fed_suits; [exact U|]. apply tables_fit; assumption.
Qed.
Lemma sb_fits evs e : fitting_evidence b0 two evs e -> ev_ok (sb evs) e /\ incl (dkeys e) (bnames (sb evs)).
Proof. intros [E I]. split; [apply slice_ev_ok, E|]. rewrite slice_bnames. exact I. Qed.
Lemma sb_arcs e evs e' evs' : same_arcs (sb (e :: evs)) (sb (e' :: evs')).
Proof. cbn [slice_bn]. eapply same_arcs_trans; [apply same_arcs_sym, fed_arcs|apply fed_arcs]. Qed.

Lemma trans_known evs v p : In (v, p) trans -> In p (bnames (sb evs)).
Proof.
  intros I. rewrite slice_bnames. destruct evs; cbn [length slice_base]; [apply (wi_b0 _ _ _ WI v p I)|apply (wi_two _ _ _ WI v p I)].
Qed.

Definition is_nil {A} (l : list A) : bool := match l with [] => true | _ => false end.

(** The invariant of sessions. *)
Record pinv (s : mstate) (done : list evidence) (p : waiting) (sh : option (list evidence)) : Prop := {
  pi_t : mt s = length done;
  pi_flag : mflag s = match p with Nothing => false | _ => true end;
  pi_trans : dtrans (mdbn s) = trans;
  pi_named : named (mheap s) (dtwo (mdbn s));
  pi_kinds : forall v p, In (v, p) trans -> exists i n, dget v (lookup (dtwo (mdbn s))) = Some i /\ nth_error (mheap s) i = Some n /\ nkind n = KDiscrete;
  pi_legal : legal_evs b0 two done;
  pi_first : done = [] -> slice_net s true = b0;
  pi_two : slice_net s false = match done with [] => two | _ => sb done end;
  pi_pending : forall e, p = Pending e -> sh = Some (e :: done);
  pi_shown : match sh with
             | None => True
             | Some [] => False
             | Some (e :: evs) => fitting_evidence b0 two evs e /\ legal_evs b0 two evs /\ (evs = done \/ done = e :: evs) /\
                                  tree_knows s (is_nil evs) (sb evs) e
             end;
  pi_tree : 2 <= length done -> has_tree s false (sb done)
}.

(** The part that set_evidence and queries leave alone. *)
Record psame (s : mstate) (done : list evidence) : Prop := {
  ps_t : mt s = length done;
  ps_trans : dtrans (mdbn s) = trans;
  ps_named : named (mheap s) (dtwo (mdbn s));
  ps_kinds : forall v p, In (v, p) trans -> exists i n, dget v (lookup (dtwo (mdbn s))) = Some i /\ nth_error (mheap s) i = Some n /\ nkind n = KDiscrete;
  ps_legal : legal_evs b0 two done;
  ps_first : done = [] -> slice_net s true = b0;
  ps_two : slice_net s false = match done with [] => two | _ => sb done end;
  ps_tree : 2 <= length done -> has_tree s false (sb done)
}.
Lemma pinv_same s done p sh : pinv s done p sh -> psame s done.
Proof. intros []. constructor; assumption. Qed.

Lemma psame_rest s s' done : psame s done -> same_rest s s' -> (2 <= length done -> has_tree s' false (sb done)) -> psame s' done.
Proof.
  intros P SR T. assert (SN := fun first => slice_net_same s s' first SR). destruct SR as (E1 & E2 & E3 & E4 & E5). destruct P.
  constructor; try rewrite E1; try rewrite E2; try rewrite E3; try rewrite SN; auto.
Qed.

Lemma net_of s done : psame s done -> slice_net s (is_nil done) = sb done.
Proof. intros P. destruct done as [|e done]; cbn [is_nil]; [apply (ps_first _ _ P eq_refl)|apply (ps_two _ _ P)]. Qed.

(** Evidence for the slice after [done]. *)
Lemma prior_prepare s done : psame s done ->
  exists s', match mt s with 0 => new_tree s true | 1 => new_tree s false | _ => on_tree s reset_factors end = (s', Ok tt) /\
    tree_knows s' (is_nil done) (sb done) [] /\ same_rest s s'.
Proof.
  intros P. assert (N := net_of s done P). rewrite (ps_t _ _ P). destruct done as [|e [|e' done]]; cbn [length is_nil] in *.
  - apply created_knows; [exact N|apply sb_suited|]. apply sb_nonneg, P.
  - apply created_knows; [exact N|apply sb_suited|]. apply sb_nonneg, P.
  - apply reset_knows; [apply P; cbn; lia|apply sb_wf|apply sb_nonneg, P|exact N].
Qed.

Lemma prior_evidence s done ev kw : psame s done -> fitting_evidence b0 two done (given ev) -> kw <> Some true ->
  exists s', set_evidence_ PriorFeedback s ev kw = (s', Ok tt) /\ tree_knows s' (is_nil done) (sb done) (given ev) /\ same_rest s s'.
Proof.
  intros P F K. destruct (prior_prepare s done P) as (s1 & E1 & K1 & R1). unfold set_evidence_. rewrite E1. cbn [seq_calls].
  replace (match kw with Some x => x | None => false end) with false by (destruct kw as [[]|]; congruence).
  destruct (sb_fits done _ F) as [F1 F2].
  destruct (set_knows s1 (is_nil done) (sb done) (given ev) (knows_has _ _ _ _ K1) (sb_wf done)) as (s2 & E2 & K2 & R2); try assumption.
  - apply sb_nonneg, P. - rewrite (slice_net_same _ _ _ R1). apply net_of, P.
  - exists s2. split; [exact E2|]. split; [exact K2|]. exact (same_rest_trans _ _ _ R1 R2).
Qed.

(** ... and calls that may fail. *)
Lemma prior_any s done ev kw : psame s done ->
  has_tree (fst (set_evidence_ PriorFeedback s ev kw)) (is_nil done) (sb done) /\ same_rest s (fst (set_evidence_ PriorFeedback s ev kw)).
Proof.
  intros P. destruct (prior_prepare s done P) as (s1 & E1 & K1 & R1). unfold set_evidence_. rewrite E1. cbn [seq_calls].
  destruct (any_has s1 (is_nil done) (sb done) (given ev) (match kw with Some x => x | None => false end) (knows_has _ _ _ _ K1)) as [H R].
  split; [exact H|]. exact (same_rest_trans _ _ _ R1 R).
Qed.

(** Feeding back. *)
Lemma feed_prior_ok s done e v p B : tree_knows s (is_nil done) (sb done) e -> In (v, p) trans ->
  named (mheap s) (dtwo (mdbn s)) ->
  (forall v p, In (v, p) trans -> exists i n, dget v (lookup (dtwo (mdbn s))) = Some i /\ nth_error (mheap s) i = Some n /\ nkind n = KDiscrete) ->
  slice_net s false = B -> same_arcs B two -> wf_bn B -> bvars B = bvars two ->
  exists s', feed_prior s v p = (s', Ok tt) /\ tree_knows s' (is_nil done) (sb done) e /\
    named (mheap s') (dtwo (mdbn s')) /\
    (forall v p, In (v, p) trans -> exists i n, dget v (lookup (dtwo (mdbn s'))) = Some i /\ nth_error (mheap s') i = Some n /\ nkind n = KDiscrete) /\
    slice_net s' false = fed B [(v, prior_table (sb done) e p)] /\
    mdbn s' = mdbn s /\ mt s' = mt s /\ mflag s' = mflag s.
Proof.
  intros K I NM KD SN SA WB BV. unfold feed_prior. destruct (KD v p I) as (i & n & D & H & KK). rewrite D.
  destruct (knows_table s (is_nil done) (sb done) e p K (sb_wf done) (trans_known done v p I)) as (s1 & E1 & K1 & R1). rewrite E1.
  destruct R1 as (Eh & Ed & Et & Ef & Es). rewrite Eh, H. unfold set_cpd. rewrite KK. unfold store_table.
  destruct (list_eq_dec Nat.eq_dec (tshape (ncpd n)) (shape (prior_table (sb done) e p))) as [ES|NS].
  - eexists. split; [reflexivity|]. cbn [mheap mdbn mt mflag]. rewrite Ed.
    split; [destruct K1 as (t & b' & X & Y & Z); exists t, b'; auto|].
    split; [exact (named_set _ _ _ _ _ H NM)|]. split.
    { intros v' p' I'. destruct (KD v' p' I') as (i' & n' & D' & H' & KK'). exists i'.
      destruct (Nat.eq_dec i' i) as [->|Ni].
      - eexists. split; [exact D'|]. rewrite nth_error_list_set, H'. destruct (Nat.eq_dec i i); [|congruence]. split; [reflexivity|exact KK].
      - exists n'. split; [exact D'|]. rewrite nth_error_list_set. destruct (Nat.eq_dec i' i); [congruence|]. auto. }
    split; [|auto]. unfold slice_net in *. cbn [mheap mdbn]. rewrite <- SN. exact (view_set _ _ v i n _ NM D H).
  - exfalso. apply NS. cbn [prior_table shape]. rewrite (slice_values b0 two trans WI done p v I).
    destruct (wi_root _ _ _ WI v p I) as (m & Hm & Em & Pm).
    assert (X : In (snapshot_node (mheap s) n) (bnodes B)).
    { rewrite <- SN. unfold slice_net, view. cbn [bnodes]. apply in_map_iff. exists (v, i). split; [|apply dget_In, D]. cbn [snd whp]. rewrite (deref_ok _ _ _ H). reflexivity. }
    assert (Nn : nname n = v). { destruct NM as [_ NM]. destruct (NM v i D) as (n' & Hn' & En'). rewrite H in Hn'. injection Hn' as <-. exact En'. }
    assert (W := wn_shape _ _ (wb_nodes _ WB _ X)).
    assert (PA : dn_parents (snapshot_node (mheap s) n) = []).
    { assert (In (dn_name (snapshot_node (mheap s) n), map fst (dn_parents (snapshot_node (mheap s) n))) (map (fun n => (dn_name n, map fst (dn_parents n))) (bnodes two))) as Y.
      { rewrite <- SA. exact (in_map (fun n => (dn_name n, map fst (dn_parents n))) _ _ X). }
      apply in_map_iff in Y as (m' & Y1 & Y2). injection Y1 as Y1 Y3. rewrite (root_unique b0 two trans WI W2 v p m' I Y2 (eq_trans Y1 Nn)) in Y3.
      apply (map_eq_nil fst). symmetry. exact Y3. }
    rewrite PA in W. cbn in W.
    replace (tshape (ncpd n)) with (shape (tarr (ncpd n))) by (destruct (ncpd n); reflexivity). rewrite W.
    assert (V : nvalues n = values_of two v); [|congruence].
    assert (Y : In (v, nvalues n) (bvars two)). { rewrite <- BV. unfold bvars. apply in_map_iff. exists (snapshot_node (mheap s) n). split; [cbn; rewrite Nn; reflexivity|exact X]. }
    apply (in_bvars two W2) in Y as [Y _]. congruence.
Qed.

Lemma alike_fits B done e v p : same_arcs B two -> wf_bn B -> bvars B = bvars two -> In (v, p) trans -> fits B [(v, prior_table (sb done) e p)].
Proof.
  intros SA WB BV I n a Hn D. cbn in D. destruct (String.eqb_spec (dn_name n) v) as [En|]; [|discriminate]. injection D as <-.
  assert (PA : dn_parents n = []).
  { assert (In (dn_name n, map fst (dn_parents n)) (map (fun n => (dn_name n, map fst (dn_parents n))) (bnodes two))) as Y.
    { rewrite <- SA. exact (in_map (fun n => (dn_name n, map fst (dn_parents n))) _ _ Hn). }
    apply in_map_iff in Y as (m' & Y1 & Y2). injection Y1 as Y1 Y3. rewrite (root_unique b0 two trans WI W2 v p m' I Y2 (eq_trans Y1 En)) in Y3.
    apply (map_eq_nil fst). symmetry. exact Y3. }
  assert (V : dn_values n = values_of two v).
  { assert (Y : In (dn_name n, dn_values n) (bvars two)). { rewrite <- BV. unfold bvars. exact (in_map (fun n => (dn_name n, dn_values n)) _ _ Hn). }
    apply (in_bvars two W2) in Y as [Y _]. congruence. }
  rewrite PA. cbn. rewrite (slice_values b0 two trans WI done p v I), V, map_length. split; [reflexivity|lia].
Qed.

Lemma feed_all_ok done e l : incl l trans -> NoDup (map fst l) -> forall s B, tree_knows s (is_nil done) (sb done) e ->
  named (mheap s) (dtwo (mdbn s)) ->
  (forall v p, In (v, p) trans -> exists i n, dget v (lookup (dtwo (mdbn s))) = Some i /\ nth_error (mheap s) i = Some n /\ nkind n = KDiscrete) ->
  slice_net s false = B -> same_arcs B two -> wf_bn B -> bvars B = bvars two ->
  exists s', feed_all feed_prior l s = (s', Ok tt) /\ tree_knows s' (is_nil done) (sb done) e /\
    named (mheap s') (dtwo (mdbn s')) /\
    (forall v p, In (v, p) trans -> exists i n, dget v (lookup (dtwo (mdbn s'))) = Some i /\ nth_error (mheap s') i = Some n /\ nkind n = KDiscrete) /\
    slice_net s' false = fed B (map (fun vp => (fst vp, prior_table (sb done) e (snd vp))) l) /\
    mdbn s' = mdbn s /\ mt s' = mt s /\ mflag s' = mflag s.
Proof.
  induction l as [|(v & p) l IH]; intros I ND s B K NM KD SN SA WB BV.
  { exists s. cbn [feed_all map]. rewrite fed_nil. auto 10. }
  cbn [map fst] in ND. inversion ND as [|? ? Nv ND']; subst x l0.
  assert (Iv : In (v, p) trans) by (apply I; left; reflexivity).
  destruct (feed_prior_ok s done e v p B K Iv NM KD SN SA WB BV) as (s1 & E1 & K1 & NM1 & KD1 & SN1 & A1 & A2 & A3).
  destruct (IH (fun x Hx => I x (or_intror Hx)) ND' s1 (fed B [(v, prior_table (sb done) e p)]) K1 NM1 KD1 SN1) as (s2 & E2 & K2 & NM2 & KD2 & SN2 & B1 & B2 & B3).
  - eapply same_arcs_trans; [apply same_arcs_sym, fed_arcs|exact SA].
  - apply fed_wf; [exact WB|]. apply alike_fits; assumption.
  - rewrite fed_bvars. exact BV.
  - exists s2. cbn [feed_all]. rewrite E1. cbn [seq_calls]. split; [exact E2|]. split; [exact K2|]. split; [exact NM2|]. split; [exact KD2|].
    split; [|repeat split; congruence]. rewrite SN2. cbn [map fst snd]. apply fed_cons. unfold dkeys. rewrite map_map. exact Nv.
Qed.

Lemma prior_unroll s done e : psame s done -> fitting_evidence b0 two done e -> tree_knows s (is_nil done) (sb done) e ->
  exists s', unroll_ PriorFeedback s = (s', Ok tt) /\ psame s' (e :: done) /\ tree_knows s' (is_nil done) (sb done) e /\ mflag s' = mflag s.
Proof.
  intros P F K. unfold unroll_. rewrite (ps_trans _ _ P).
  set (B := match done with [] => two | _ => sb done end).
  assert (SA : same_arcs B two). { unfold B. destruct done; [reflexivity|]. cbn [slice_bn]. apply same_arcs_sym, fed_arcs. }
  assert (WB : wf_bn B). { unfold B. destruct done; [exact W2|apply sb_wf]. }
  assert (BV : bvars B = bvars two). { unfold B. destruct done; [reflexivity|]. cbn [slice_bn]. apply fed_bvars. }
  destruct (feed_all_ok done e trans (incl_refl _) (wi_nodup _ _ _ WI) s B K (ps_named _ _ P) (ps_kinds _ _ P) (ps_two _ _ P) SA WB BV)
    as (s1 & E1 & K1 & NM1 & KD1 & SN1 & A1 & A2 & A3).
  rewrite E1. cbn [seq_calls]. exists (tick s1). split; [reflexivity|].
  assert (KT : tree_knows (tick s1) (is_nil done) (sb done) e) by exact K1.
  split; [|auto]. constructor.
  - cbn. rewrite A2, (ps_t _ _ P). reflexivity.
  - cbn. rewrite A1. apply P.
  - exact NM1.
  - exact KD1.
  - split; [exact F|apply P].
  - discriminate.
  - change (slice_net (tick s1) false) with (slice_net s1 false). rewrite SN1. cbn [slice_bn]. unfold B. destruct done as [|e' done]; [reflexivity|].
    cbn [slice_bn]. apply fed_again. unfold fed_tables, dkeys. rewrite !map_map. cbn. auto.
  - intros L. destruct done as [|e' done]; [cbn in L; lia|]. cbn [is_nil] in KT. destruct KT as (t & b' & X & Y & Z).
    exists t, b', (Some (sb (e' :: done), e, false)). split; [exact X|]. split; [|exact Z].
    eapply same_arcs_trans; [exact Y|apply sb_arcs].
Qed.

Lemma pinv_intro s done p sh : psame s done -> mflag s = match p with Nothing => false | _ => true end -> (forall e, p = Pending e -> sh = Some (e :: done)) ->
  match sh with
  | None => True
  | Some [] => False
  | Some (e :: evs) => fitting_evidence b0 two evs e /\ legal_evs b0 two evs /\ (evs = done \/ done = e :: evs) /\ tree_knows s (is_nil evs) (sb evs) e
  end -> pinv s done p sh.
Proof. intros [] ? ? ?. constructor; assumption. Qed.

Lemma create_pinv : pinv (mcreate PriorFeedback h d) [] Nothing None.
Proof.
  unfold mcreate, deepcopy. fold (copied h). apply pinv_intro; [|reflexivity|discriminate|exact I].
  constructor; cbn [mt mdbn mheap dtrans dtwo db0].
  - reflexivity.
  - reflexivity.
  - apply named_copied, consistent_named, OB.
  - intros v p I. destruct (ob_discrete _ _ OB v p I) as (i & n & [D H] & K). cbn in D, H. exists (i + length h), (shift_node (length h) n).
    cbn [shift_net lookup]. rewrite dget_shift, D. rewrite nth_copied, H. auto.
  - exact I.
  - intros _. unfold slice_net. cbn [mheap mdbn db0]. apply view_copied.
  - unfold slice_net. cbn [mheap mdbn dtwo]. apply view_copied.
  - cbn. lia.
Qed.

Lemma psame_flag s done x : psame s done -> psame (with_flag s x) done.
Proof. intros []. constructor; assumption. Qed.

Lemma psame_evidence s s' done : psame s done -> same_rest s s' -> has_tree s' (is_nil done) (sb done) -> psame s' done.
Proof.
  intros P R T. apply (psame_rest s s' done P R). intros L. destruct done; [cbn in L; lia|exact T].
Qed.

Lemma failed_pinv s done p sh ev kw s' : pinv s done p sh -> s' = fst (set_evidence_ PriorFeedback s ev kw) -> pinv s' done (spoil p) None.
Proof.
  intros V ->. assert (P := pinv_same _ _ _ _ V). destruct (prior_any s done ev kw P) as [T R]. apply pinv_intro.
  - exact (psame_evidence _ _ _ P R T).
  - destruct R as (_ & _ & _ & -> & _). rewrite (pi_flag _ _ _ _ V). destruct p; reflexivity.
  - destruct p; discriminate.
  - exact I.
Qed.

Lemma shown_flag s x evs e : tree_knows s (is_nil evs) (sb evs) e -> tree_knows (with_flag s x) (is_nil evs) (sb evs) e.
Proof. intros (t & b' & X). exists t, b'. exact X. Qed.

Theorem prior_session s done p sh : session PriorFeedback (fitting_evidence b0 two) h d s done p sh -> pinv s done p sh.
Proof.
  induction 1 as [|s done p sh ev kw S IH F|s done p sh ev kw S IH W KW F|s done e sh kw S IH|s done p sh Q S IH|s done p sh ev kw x S IH E|s done p sh ev kw x S IH W E].
  - exact create_pinv.
  - assert (P := pinv_same _ _ _ _ IH). destruct (prior_evidence s done ev None P F ltac:(discriminate)) as (s1 & E1 & K1 & R1).
    cbn [mexec]. unfold dset_evidence. rewrite E1. cbn [seq_calls fst]. apply pinv_intro.
    + apply psame_flag, (psame_evidence s); [exact P|exact R1|]. eapply knows_has, K1.
    + reflexivity.
    + intros e E. injection E as <-. reflexivity.
    + split; [exact F|]. split; [apply P|]. split; [left; reflexivity|]. apply shown_flag, K1.
  - assert (P := pinv_same _ _ _ _ IH). destruct (prior_evidence s done ev kw P F KW) as (s1 & E1 & K1 & R1).
    cbn [mexec]. unfold dunroll. replace (negb (mflag s) || match ev with Some _ => true | None => false end) with true.
    2: { rewrite (pi_flag _ _ _ _ IH). destruct W as [->|W]; [reflexivity|]. destruct ev; [|congruence]. destruct p; reflexivity. }
    rewrite E1. cbn [seq_calls]. assert (P1 : psame s1 done) by (apply (psame_evidence s); [exact P|exact R1|eapply knows_has, K1]).
    destruct (prior_unroll s1 done (given ev) P1 F K1) as (s2 & E2 & P2 & K2 & F2). rewrite E2. cbn [seq_calls fst]. apply pinv_intro.
    + apply psame_flag, P2.
    + reflexivity.
    + discriminate.
    + split; [exact F|]. split; [apply P1|]. split; [right; reflexivity|]. apply shown_flag, K2.
  - assert (P := pinv_same _ _ _ _ IH). cbn [mexec]. unfold dunroll. rewrite (pi_flag _ _ _ _ IH). cbn [negb orb seq_calls].
    assert (SH := pi_pending _ _ _ _ IH e eq_refl). subst sh. destruct (pi_shown _ _ _ _ IH) as (F & L & _ & K).
    destruct (prior_unroll s done e P F K) as (s2 & E2 & P2 & K2 & F2). rewrite E2. cbn [seq_calls fst]. apply pinv_intro.
    + apply psame_flag, P2.
    + reflexivity.
    + discriminate.
    + split; [exact F|]. split; [exact L|]. split; [right; reflexivity|]. apply shown_flag, K2.
  - cbn [mexec fst]. assert (P := pinv_same _ _ _ _ IH). assert (R := query_rest s Q). apply pinv_intro.
    + apply (psame_rest s); [exact P|exact R|]. intros L. apply query_has, P, L.
    + destruct R as (_ & _ & _ & -> & _). apply IH.
    + apply IH.
    + assert (X := pi_shown _ _ _ _ IH). destruct sh as [[|e evs]|]; [exact X| |exact X]. destruct X as (X1 & X2 & X3 & X4). repeat (split; [assumption|]). apply query_knows, X4.
  - apply (failed_pinv s done p sh ev None); [exact IH|]. cbn [mexec] in *. unfold dset_evidence in *. destruct (set_evidence_ PriorFeedback s ev None) as [s1 [u|y]]; [discriminate|reflexivity].
  - apply (failed_pinv s done p sh ev kw); [exact IH|]. cbn [mexec]. unfold dunroll. replace (negb (mflag s) || match ev with Some _ => true | None => false end) with true.
    2: { rewrite (pi_flag _ _ _ _ IH). destruct W as [->|W]; [reflexivity|]. destruct ev; [|congruence]. destruct p; reflexivity. }
    destruct (set_evidence_ PriorFeedback s ev kw) as [s1 [u|y]]; [discriminate|reflexivity].
Qed.

(** What the marginals are. *)
Theorem prior_answers s done p e evs n Q : session PriorFeedback (fitting_evidence b0 two) h d s done p (Some (e :: evs)) ->
  In n (bnodes (slice_base b0 two (length evs))) -> NoDup Q -> incl Q (dn_name n :: map fst (dn_parents n)) ->
  exists f, snd (dmarginals s Q) = Ok f /\ reports (slice_base b0 two (length evs)) f Q (posterior (sb evs) e).
Proof.
  intros S Hn ND I. destruct (pi_shown _ _ _ _ (prior_session _ _ _ _ S)) as (F & L & _ & K).
  assert (exists n', In n' (bnodes (sb evs)) /\ dn_name n' = dn_name n /\ dn_parents n' = dn_parents n) as (n' & Hn' & E1 & E2).
  { destruct evs as [|e' evs]; [exists n; auto|]. cbn [slice_bn]. exists (fed1 (fed_tables trans (sb evs) e') n). rewrite fed1_name, fed1_parents.
    split; [exact (in_map _ _ _ Hn)|auto]. }
  rewrite <- E1, <- E2 in I. destruct (knows_answer s _ _ e Q n' K Hn' ND I) as (f & Ef & R). exists f. split; [exact Ef|].
  destruct R as (R1 & R2 & R3 & R4 & R5 & R6 & R7). split; [exact R1|]. split; [exact R2|].
  split; [intros v Hv; rewrite <- slice_values_of with (trans := trans); apply R3, Hv|]. split; [exact R4|].
  split; [rewrite R5; apply map_ext; intros v; rewrite slice_values_of; reflexivity|]. split; [exact R6|].
  intros q (Q1 & Q2 & Q3). apply R7. split; [exact Q1|]. split; [exact Q2|]. intros v x Hx. rewrite slice_values_of. apply Q3, Hx.
Qed.
End Prior.
