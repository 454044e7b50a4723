(** Every sequence of calls on an object for inference over time: the invariant. *)
From Verif Require Import Base BaseFacts NDArray NDArrayFacts Factor FactorFacts Exact Spec SpecFacts Order OrderSpec JoinTree TreeSpec JTBuild JTProof JTProof2 JTTop JTJunction JTHistory
  Node Network NetSpec NetFacts NetView Dynamic DynSpec DynPure DynHeap DynPrior DynSoft ErrSpec TreeErrSpec TreeErrProof LeftSpec LeftProof DynUseSpec DynUse.

Lemma leaves_legal {SO : SetOrder} b post ev ev' : wf_bn b -> nonneg_bn b -> NoDup (dkeys ev) -> weights_ok ev -> leaves b post ev ev' -> ev_ok b ev' /\ incl (dkeys ev') (bnames b).
Proof.
  intros WB NN ND W LV. inversion LV as [v P Hv Nv|l l' e0 K El NF Fl R].
  - split; [apply ev_nil|intros ? []].
  - subst. set (d := if post then map (fun v => (v, prior b v)) (dkeys (l ++ l')) else []).
    destruct (items_left b WB NN post d l) as (ev1 & R1 & EV & KI & _).
    + unfold dkeys in ND |- *. rewrite map_app in ND. exact (HuginPure.NoDup_app_l _ _ ND).
    + intros w q Hw. apply (W w). apply in_or_app. left; exact Hw.
    + intros v Hv _. unfold d. destruct post; [|reflexivity].
      assert (Hv' : In v (dkeys (l ++ l'))) by (unfold dkeys in *; rewrite map_app; apply in_or_app; left; exact Hv).
      clear - Hv'. induction (dkeys (l ++ l')) as [|w m IH]; [contradiction|]. cbn.
      destruct (String.eqb_spec v w) as [->|N]; [reflexivity|]. apply IH. destruct Hv'; [congruence|assumption].
    + exact NF.
    + rewrite (read_one b post l ev' ev1 R R1). auto.
Qed.

Section Trees.
Context {SO : SetOrder}.
Definition tknows (s : mstate) (first : bool) (b : bn) (e : evidence) : Prop :=
  exists t b', mtree s = Some (first, t) /\ same_arcs b' b /\ lives b' t b e.

Lemma u_created s first b : slice_net s first = b -> suited b -> nonneg_bn b ->
  exists s', new_tree s first = (s', Ok tt) /\ tknows s' first b [] /\ same_rest s s'.
Proof.
  intros N (o & EO & U) NN. unfold new_tree. rewrite N. destruct (create_ok b o None U NN EO) as (t & r & sv & E & J & V & L). rewrite E.
  eexists. split; [reflexivity|]. split; [|apply same_rest_tree].
  exists t, b. split; [reflexivity|]. split; [reflexivity|]. eapply V_create; eassumption.
Qed.

Lemma u_reset s first b1 e1 b : tknows s first b1 e1 -> same_arcs b1 b -> wf_bn b -> nonneg_bn b -> slice_net s first = b ->
  exists s', on_tree s reset_factors = (s', Ok tt) /\ tknows s' first b [] /\ same_rest s s'.
Proof.
  intros (t & b' & E & SA & L) SA' WB NN N. unfold on_tree. rewrite E, N. destruct (lives_reaches _ _ _ _ L) as (k & R).
  assert (A := same_arcs_trans _ _ _ SA SA').
  destruct (calls_succeed b' t _ b [] R A WB NN) as (_ & O & _); [split; [constructor|intros v e []]|intros v []|].
  exists (with_tree s (Some (first, fst (reset_factors b t)))).
  rewrite O. split; [reflexivity|]. split; [|apply same_rest_tree].
  exists (fst (reset_factors b t)), b'. split; [reflexivity|]. split; [exact A|]. eapply V_reset; eassumption.
Qed.

Lemma u_set s first b1 e1 b post ev ev' : tknows s first b1 e1 -> same_arcs b1 b -> wf_bn b -> nonneg_bn b -> slice_net s first = b ->
  NoDup (dkeys ev) -> weights_ok ev -> leaves b post ev ev' ->
  let r := on_tree s (fun b t => set_evidence b ev post t) in
  tknows (fst r) first b ev' /\ same_rest s (fst r) /\ forall x, snd r = Err x <-> evidence_fault b post ev x.
Proof.
  intros (t & b' & E & SA & L) SA' WB NN N ND W LV. cbv zeta. unfold on_tree. rewrite E, N. destruct (lives_reaches _ _ _ _ L) as (k & R).
  assert (A := same_arcs_trans _ _ _ SA SA'). cbn [fst snd]. split; [|split].
  - exists (fst (set_evidence b ev post t)), b'. split; [reflexivity|]. split; [exact A|]. eapply V_evidence; eassumption.
  - apply same_rest_tree.
  - intros x. apply (set_evidence_outcome b' t k b ev post x R A WB NN ND W).
Qed.

Lemma u_query s first b e Q : tknows s first b e -> tknows (fst (dmarginals s Q)) first b e.
Proof.
  intros (t & b' & E & SA & L). unfold dmarginals, on_tree. rewrite E. eexists _, b'. split; [reflexivity|]. split; [exact SA|]. apply V_query, L.
Qed.

Lemma u_table s first b e v : tknows s first b e -> In v (bnames b) ->
  exists s', slice_table s v = (s', Ok (prior_table b e v)) /\ tknows s' first b e /\ same_rest s s'.
Proof.
  intros K Hv. assert (K' := u_query s first b e [v] K). assert (R' := query_rest s [v]). unfold slice_table.
  destruct K as (t & b' & E & SA & L). destruct (lives_holds _ _ _ _ L) as (WB & _). destruct (lives_reaches _ _ _ _ L) as (k & R).
  destruct (lives_report b' t b e [v] L) as (f & Ef & Rf).
  { constructor; [tauto|constructor]. }
  { apply (single_answers _ _ _ _ R). rewrite (same_arcs_names _ _ SA). exact Hv. }
  destruct (dmarginals s [v]) as [s' r] eqn:D. cbn [fst] in *. exists s'. assert (r = Ok f).
  { unfold dmarginals, on_tree in D. rewrite E in D. injection D as _ <-. exact Ef. }
  subst r. rewrite (potential_whole b f _ _ Rf), (reports_table b f v e WB Hv Rf). auto.
Qed.

Lemma u_answer s first b e Q : tknows s first b e -> exists t, mtree s = Some (first, t) /\
  (NoDup Q -> answers t Q -> exists f, snd (dmarginals s Q) = Ok f /\ reports b f Q (posterior b e)) /\
  (forall x, snd (dmarginals s Q) = Err x <-> x = ValueError /\ ~ answers t Q) /\
  forall n, In n (bnodes b) -> incl Q (dn_name n :: map fst (dn_parents n)) -> answers t Q.
Proof.
  intros (t & b' & E & SA & L). exists t. split; [exact E|]. unfold dmarginals, on_tree. rewrite E. cbn [snd]. split; [|split].
  - intros ND A. exact (lives_report b' t b e Q L ND A).
  - intros x. exact (lives_refuse b' t b e Q x L).
  - intros n Hn I. destruct (lives_reaches _ _ _ _ L) as (k & R).
    assert (In (dn_name n, map fst (dn_parents n)) (map (fun n => (dn_name n, map fst (dn_parents n))) (bnodes b'))) as Hn'.
    { rewrite SA. exact (in_map (fun n => (dn_name n, map fst (dn_parents n))) _ _ Hn). }
    apply in_map_iff in Hn' as (n' & En & Hn'). injection En as E1 E2. rewrite <- E1, <- E2 in I. exact (family_answers b' t _ n' Q R Hn' I).
Qed.

Lemma tknows_flag s x first b e : tknows s first b e -> tknows (with_flag s x) first b e.
Proof. intros (t & b' & X). exists t, b'. exact X. Qed.
Lemma tknows_tick s first b e : tknows s first b e -> tknows (tick s) first b e.
Proof. intros (t & b' & X). exists t, b'. exact X. Qed.
End Trees.

Section Uses.
Context {SO : SetOrder}.
Variable h : heap.
Variable d : dbnet.
Notation b0 := (view (mkW h (db0 d))).
Notation two := (view (mkW h (dtwo d))).
Notation trans := (dtrans d).
Notation sb := (slice_bn b0 two trans).
Hypothesis TR : trackable b0 two trans.
Hypothesis OB : objects h d.

Let W0 : wf_bn b0. Proof. destruct (tr_b0 _ _ _ TR) as (o & _ & U). apply U. Qed.
Let W2 : wf_bn two. Proof. destruct (tr_two _ _ _ TR) as (o & _ & U). apply U. Qed.
Let WI : wired b0 two trans := tr_wired _ _ _ TR.
Let sb_wf := sb_wf h d TR.
Let trans_known := trans_known h d TR.

Lemma ufeed_prior s done e v p B : tknows s (is_nil done) (sb done) e -> In (v, p) trans ->
  named (mheap s) (dtwo (mdbn s)) ->
  (forall v p, In (v, p) trans -> exists i n, dget v (lookup (dtwo (mdbn s))) = Some i /\ nth_error (mheap s) i = Some n /\ nkind n = KDiscrete) ->
  slice_net s false = B -> same_arcs B two -> wf_bn B -> bvars B = bvars two ->
  exists s', feed_prior s v p = (s', Ok tt) /\ tknows s' (is_nil done) (sb done) e /\
    named (mheap s') (dtwo (mdbn s')) /\
    (forall v p, In (v, p) trans -> exists i n, dget v (lookup (dtwo (mdbn s'))) = Some i /\ nth_error (mheap s') i = Some n /\ nkind n = KDiscrete) /\
    slice_net s' false = fed B [(v, prior_table (sb done) e p)] /\
    mdbn s' = mdbn s /\ mt s' = mt s /\ mflag s' = mflag s.
Proof.
  intros K I NM KD SN SA WB BV. unfold feed_prior. destruct (KD v p I) as (i & n & D & H & KK). rewrite D.
  destruct (u_table s (is_nil done) (sb done) e p K (trans_known done v p I)) as (s1 & E1 & K1 & R1). rewrite E1.
  destruct R1 as (Eh & Ed & Et & Ef & Es). rewrite Eh, H. unfold set_cpd. rewrite KK. unfold store_table.
  destruct (list_eq_dec Nat.eq_dec (tshape (ncpd n)) (shape (prior_table (sb done) e p))) as [ES|NS].
  - eexists. split; [reflexivity|]. cbn [mheap mdbn mt mflag]. rewrite Ed.
    split; [destruct K1 as (t & b' & X & Y & Z); exists t, b'; auto|].
    split; [exact (named_set _ _ _ _ _ H NM)|]. split.
    { intros v' p' I'. destruct (KD v' p' I') as (i' & n' & D' & H' & KK'). exists i'.
      destruct (Nat.eq_dec i' i) as [->|Ni].
      - eexists. split; [exact D'|]. rewrite nth_error_list_set, H'. destruct (Nat.eq_dec i i); [|congruence]. split; [reflexivity|exact KK].
      - exists n'. split; [exact D'|]. rewrite nth_error_list_set. destruct (Nat.eq_dec i' i); [congruence|]. auto. }
    split; [|auto]. unfold slice_net in *. cbn [mheap mdbn]. rewrite <- SN. exact (view_set _ _ v i n _ NM D H).
  - exfalso. apply NS. cbn [prior_table shape]. rewrite (slice_values b0 two trans WI done p v I).
    destruct (wi_root _ _ _ WI v p I) as (m & Hm & Em & Pm).
    assert (X : In (snapshot_node (mheap s) n) (bnodes B)).
    { rewrite <- SN. unfold slice_net, view. cbn [bnodes]. apply in_map_iff. exists (v, i). split; [|apply dget_In, D]. cbn [snd whp]. rewrite (deref_ok _ _ _ H). reflexivity. }
    assert (Nn : nname n = v). { destruct NM as [_ NM]. destruct (NM v i D) as (n' & Hn' & En'). rewrite H in Hn'. injection Hn' as <-. exact En'. }
    assert (W := wn_shape _ _ (wb_nodes _ WB _ X)).
    assert (PA : dn_parents (snapshot_node (mheap s) n) = []).
    { assert (In (dn_name (snapshot_node (mheap s) n), map fst (dn_parents (snapshot_node (mheap s) n))) (map (fun n => (dn_name n, map fst (dn_parents n))) (bnodes two))) as Y.
      { rewrite <- SA. exact (in_map (fun n => (dn_name n, map fst (dn_parents n))) _ _ X). }
      apply in_map_iff in Y as (m' & Y1 & Y2). injection Y1 as Y1 Y3. rewrite (root_unique b0 two trans WI W2 v p m' I Y2 (eq_trans Y1 Nn)) in Y3.
      apply (map_eq_nil fst). symmetry. exact Y3. }
    rewrite PA in W. cbn in W.
    replace (tshape (ncpd n)) with (shape (tarr (ncpd n))) by (destruct (ncpd n); reflexivity). rewrite W.
    assert (V : nvalues n = values_of two v); [|congruence].
    assert (Y : In (v, nvalues n) (bvars two)). { rewrite <- BV. unfold bvars. apply in_map_iff. exists (snapshot_node (mheap s) n). split; [cbn; rewrite Nn; reflexivity|exact X]. }
    apply (in_bvars two W2) in Y as [Y _]. congruence.
Qed.

Lemma ualike_fits B done e v p : same_arcs B two -> wf_bn B -> bvars B = bvars two -> In (v, p) trans -> fits B [(v, prior_table (sb done) e p)].
Proof.
  intros SA WB BV I n a Hn D. cbn in D. destruct (String.eqb_spec (dn_name n) v) as [En|]; [|discriminate]. injection D as <-.
  assert (PA : dn_parents n = []).
  { assert (In (dn_name n, map fst (dn_parents n)) (map (fun n => (dn_name n, map fst (dn_parents n))) (bnodes two))) as Y.
    { rewrite <- SA. exact (in_map (fun n => (dn_name n, map fst (dn_parents n))) _ _ Hn). }
    apply in_map_iff in Y as (m' & Y1 & Y2). injection Y1 as Y1 Y3. rewrite (root_unique b0 two trans WI W2 v p m' I Y2 (eq_trans Y1 En)) in Y3.
    apply (map_eq_nil fst). symmetry. exact Y3. }
  assert (V : dn_values n = values_of two v).
  { assert (Y : In (dn_name n, dn_values n) (bvars two)). { rewrite <- BV. unfold bvars. exact (in_map (fun n => (dn_name n, dn_values n)) _ _ Hn). }
    apply (in_bvars two W2) in Y as [Y _]. congruence. }
  rewrite PA. cbn. rewrite (slice_values b0 two trans WI done p v I), V, map_length. split; [reflexivity|lia].
Qed.

Lemma ufeed_all done e l : incl l trans -> NoDup (map fst l) -> forall s B, tknows s (is_nil done) (sb done) e ->
  named (mheap s) (dtwo (mdbn s)) ->
  (forall v p, In (v, p) trans -> exists i n, dget v (lookup (dtwo (mdbn s))) = Some i /\ nth_error (mheap s) i = Some n /\ nkind n = KDiscrete) ->
  slice_net s false = B -> same_arcs B two -> wf_bn B -> bvars B = bvars two ->
  exists s', feed_all feed_prior l s = (s', Ok tt) /\ tknows s' (is_nil done) (sb done) e /\
    named (mheap s') (dtwo (mdbn s')) /\
    (forall v p, In (v, p) trans -> exists i n, dget v (lookup (dtwo (mdbn s'))) = Some i /\ nth_error (mheap s') i = Some n /\ nkind n = KDiscrete) /\
    slice_net s' false = fed B (map (fun vp => (fst vp, prior_table (sb done) e (snd vp))) l) /\
    mdbn s' = mdbn s /\ mt s' = mt s /\ mflag s' = mflag s.
Proof.
  induction l as [|(v & p) l IH]; intros I ND s B K NM KD SN SA WB BV.
  { exists s. cbn [feed_all map]. rewrite fed_nil. auto 10. }
  cbn [map fst] in ND. inversion ND as [|? ? Nv ND']; subst x l0.
  assert (Iv : In (v, p) trans) by (apply I; left; reflexivity).
  destruct (ufeed_prior s done e v p B K Iv NM KD SN SA WB BV) as (s1 & E1 & K1 & NM1 & KD1 & SN1 & A1 & A2 & A3).
  destruct (IH (fun x Hx => I x (or_intror Hx)) ND' s1 (fed B [(v, prior_table (sb done) e p)]) K1 NM1 KD1 SN1) as (s2 & E2 & K2 & NM2 & KD2 & SN2 & B1 & B2 & B3).
  - eapply same_arcs_trans; [apply same_arcs_sym, fed_arcs|exact SA].
  - apply fed_wf; [exact WB|]. apply ualike_fits; assumption.
  - rewrite fed_bvars. exact BV.
  - exists s2. cbn [feed_all]. rewrite E1. cbn [seq_calls]. split; [exact E2|]. split; [exact K2|]. split; [exact NM2|]. split; [exact KD2|].
    split; [|repeat split; congruence]. rewrite SN2. cbn [map fst snd]. apply fed_cons. unfold dkeys. rewrite map_map. exact Nv.
Qed.


Lemma ufeed_soft b e first l : (forall v p, In (v, p) l -> In p (bnames b)) -> NoDup (map fst l) -> forall s,
  tknows s first b e -> (forall v, In v (map fst l) -> ~ In v (dkeys (mtrans s))) ->
  exists s', feed_all feed_soft l s = (s', Ok tt) /\ tknows s' first b e /\
    mheap s' = mheap s /\ mdbn s' = mdbn s /\ mt s' = mt s /\ mflag s' = mflag s /\
    mtrans s' = mtrans s ++ map (fun vp => (fst vp, prior_table b e (snd vp))) l.
Proof.
  intros I ND. induction l as [|(v & p) l IH]; intros s K D.
  { exists s. cbn. rewrite app_nil_r. auto 10. }
  cbn [map fst] in ND. inversion ND as [|? ? Nv ND']; subst x l0.
  destruct (u_table s first b e p K (I v p (or_introl eq_refl))) as (s1 & E1 & K1 & R1).
  cbn [feed_all]. unfold feed_soft at 1. rewrite E1. cbn [seq_calls]. destruct R1 as (A1 & A2 & A3 & A4 & A5).
  assert (Ds : dset v (prior_table b e p) (mtrans s1) = mtrans s ++ [(v, prior_table b e p)]).
  { rewrite A5. apply dset_app, D. left. reflexivity. }
  destruct (IH (fun v' p' Hx => I v' p' (or_intror Hx)) ND' (with_trans s1 (dset v (prior_table b e p) (mtrans s1)))) as (s2 & E2 & K2 & B1 & B2 & B3 & B4 & B5).
  - destruct K1 as (t & b' & X). exists t, b'. exact X.
  - intros u Hu Hd. cbn [with_trans mtrans] in Hd. rewrite Ds in Hd. unfold dkeys in Hd. rewrite map_app in Hd. apply in_app_or in Hd as [Hd|[Hd|[]]].
    + exact (D u (or_intror Hu) Hd). + cbn in Hd. subst. contradiction.
  - exists s2. split; [exact E2|]. split; [exact K2|]. cbn [with_trans mheap mdbn mt mflag mtrans] in *. rewrite Ds in B5. repeat (split; [congruence|]). rewrite B5, <- app_assoc. reflexivity.
Qed.

(** ** The network of a slice *)
Variable m : method.
Definition net_ (evs : list evidence) : bn := match m with PriorFeedback => sb evs | SoftEvidence => slice_base b0 two (length evs) end.
Lemma read_net_eq evs : read_net b0 two trans m evs = net_ evs.
Proof. unfold read_net, net_. destruct m; [apply believed_slice|reflexivity]. Qed.
Lemma net_wf evs : wf_bn (net_ evs).
Proof. unfold net_. destruct m; [apply sb_wf|]. destruct evs; cbn; assumption. Qed.
Lemma net_nonneg evs : legal_evs b0 two evs -> nonneg_bn (net_ evs).
Proof. intros L. unfold net_. destruct m; [apply (sb_nonneg h d TR), L|]. destruct evs; cbn; apply TR. Qed.
Lemma net_suited evs : suited (net_ evs).
Proof. unfold net_. destruct m; [apply (sb_suited h d TR)|]. destruct evs; cbn; apply TR. Qed.
Lemma net_arcs e evs e' evs' : same_arcs (net_ (e :: evs)) (net_ (e' :: evs')).
Proof. unfold net_. destruct m; [apply sb_arcs|reflexivity]. Qed.
Lemma net_bnames evs : bnames (net_ evs) = bnames (slice_base b0 two (length evs)).
Proof. unfold net_. destruct m; [apply slice_bnames|reflexivity]. Qed.
Lemma net_values evs v : values_of (net_ evs) v = values_of (slice_base b0 two (length evs)) v.
Proof. unfold net_. destruct m; [apply slice_values_of|reflexivity]. Qed.
Lemma net_fits evs e : ev_ok (net_ evs) e -> incl (dkeys e) (bnames (net_ evs)) -> fitting_evidence b0 two evs e.
Proof.
  intros [ND H] I. rewrite net_bnames in I. split; [|exact I]. split; [exact ND|]. intros v x Hx Hv. rewrite <- net_bnames in Hv. specialize (H v x Hx Hv).
  destruct x; rewrite net_values in H; exact H.
Qed.
Lemma net_trans evs v p : In (v, p) trans -> In p (bnames (net_ evs)).
Proof. intros I. rewrite net_bnames, <- (slice_bnames b0 two trans). exact (trans_known evs v p I). Qed.

(** ** The invariant *)
Record usame (s : mstate) (done : list evidence) : Prop := {
  us_t : mt s = length done;
  us_trans : dtrans (mdbn s) = trans;
  us_named : named (mheap s) (dtwo (mdbn s));
  us_kinds : forall v p, In (v, p) trans -> exists i n, dget v (lookup (dtwo (mdbn s))) = Some i /\ nth_error (mheap s) i = Some n /\ nkind n = KDiscrete;
  us_legal : legal_evs b0 two done;
  us_first : done = [] -> slice_net s true = b0;
  us_two : slice_net s false = match done with [] => two | _ => net_ done end;
  us_links : m = SoftEvidence -> mtrans s = match done with [] => [] | e :: evs => fed_tables trans (net_ evs) e end
}.
Definition ushown (s : mstate) (done : list evidence) (sh : option (list evidence)) : Prop :=
  match sh with
  | None => done = [] /\ mtree s = None
  | Some [] => False
  | Some (e :: evs) => fitting_evidence b0 two evs e /\ legal_evs b0 two evs /\ (evs = done \/ done = e :: evs) /\ tknows s (is_nil evs) (net_ evs) e
  end.
Record uinv (s : mstate) (done : list evidence) (sh : option (list evidence)) (w : bool) : Prop := {
  ui_same : usame s done;
  ui_flag : mflag s = w;
  ui_wait : w = true -> exists e, sh = Some (e :: done);
  ui_shown : ushown s done sh
}.

Lemma usame_rest s s' done : usame s done -> same_rest s s' -> usame s' done.
Proof.
  intros P SR. assert (SN := fun first => slice_net_same s s' first SR). destruct SR as (E1 & E2 & E3 & E4 & E5). destruct P.
  constructor; try rewrite E1; try rewrite E2; try rewrite E3; try rewrite E5; try rewrite SN; auto.
Qed.
Lemma usame_flag s done x : usame s done -> usame (with_flag s x) done.
Proof. intros []. constructor; assumption. Qed.

Lemma unet s done : usame s done -> slice_net s (is_nil done) = net_ done.
Proof.
  intros P. destruct done as [|e done]; cbn [is_nil]; [|apply (us_two _ _ P)]. rewrite (us_first _ _ P eq_refl). unfold net_. destruct m; reflexivity.
Qed.

Lemma ucreate : uinv (mcreate m h d) [] None false.
Proof.
  constructor; [|destruct m; reflexivity|discriminate|split; [reflexivity|destruct m; reflexivity]].
  unfold mcreate, deepcopy. fold (copied h). destruct m eqn:EM.
  - constructor; cbn [mt mdbn mheap dtrans dtwo db0].
    + reflexivity.
    + reflexivity.
    + apply named_copied, consistent_named, OB.
    + intros v p I. destruct (ob_discrete _ _ OB v p I) as (i & n & [D H] & K). cbn in D, H. exists (i + length h), (shift_node (length h) n).
      cbn [shift_net lookup]. rewrite dget_shift, D. rewrite nth_copied, H. auto.
    + exact I.
    + intros _. unfold slice_net. cbn [mheap mdbn db0]. apply view_copied.
    + unfold slice_net. cbn [mheap mdbn dtwo]. apply view_copied.
    + congruence.
  - constructor; cbn [mt mdbn mheap mtrans]; try reflexivity.
    + apply consistent_named, OB.
    + intros v p I. destruct (ob_discrete _ _ OB v p I) as (i & n & [D H] & K). cbn in D, H. eauto.
Qed.

(** ** Setting evidence *)
Definition ev_ (evs : list evidence) (ev : option evidence) : evidence := read_ev b0 two trans m evs ev.

Lemma links_fed evs e : m = SoftEvidence -> map (fun p => (fst p, Soft (data (snd p)))) (fed_tables trans (net_ evs) e) = links b0 two trans (e :: evs).
Proof. intros E. unfold net_. rewrite E. unfold fed_tables, links, prior_table, chances. rewrite map_map. reflexivity. Qed.

Lemma links_keys evs : NoDup (dkeys (links b0 two trans evs)).
Proof. destruct evs as [|e evs]; cbn [links]; [constructor|]. unfold dkeys. rewrite map_map. cbn [fst]. apply WI. Qed.

Lemma ev_keys evs ev : NoDup (dkeys (given ev)) -> NoDup (dkeys (ev_ evs ev)).
Proof.
  intros ND. unfold ev_, read_ev. destruct m; [exact ND|]. unfold updated, dkeys. rewrite map_app, map_map. cbn [fst]. apply NoDup_app_disj; [exact ND| |].
  - assert (N := links_keys evs). revert N. generalize (links b0 two trans evs) as l. induction l as [|[v x] l IH]; intros N; [constructor|].
    cbn in N. apply NoDup_cons_iff in N as [Nv N]. cbn [filter]. destruct (negb _); [|auto]. cbn. constructor; [|auto].
    intros H. apply Nv. apply in_map_iff in H as (q & <- & Hq). apply filter_In in Hq as [Hq _]. exact (in_map fst _ _ Hq).
  - intros v H1 H2. apply in_map_iff in H2 as (q & <- & Hq). apply filter_In in Hq as [_ Hq]. apply Bool.negb_true_iff, mem_nIn in Hq. exact (Hq H1).
Qed.

Lemma links_weights evs v q : legal_evs b0 two evs -> In (v, Soft q) (links b0 two trans evs) -> Forall (fun x => 0 <= x)%Qc q.
Proof.
  intros L H. destruct evs as [|e evs]; [contradiction|]. cbn [links] in H. apply in_map_iff in H as ((w & p) & E & _). injection E as <- <-.
  unfold chances. apply Forall_forall. intros x Hx. apply in_map_iff in Hx as (y & <- & _). destruct L as [[E _] _].
  apply posterior_nonneg; [destruct evs; assumption|destruct evs; apply TR|exact E].
Qed.

Lemma ev_weights evs ev : legal_evs b0 two evs -> weights_ok (given ev) -> weights_ok (ev_ evs ev).
Proof.
  intros L W. unfold ev_, read_ev. destruct m; [exact W|]. intros v q H. unfold updated in H. apply in_app_or in H as [H|H].
  - apply in_map_iff in H as ((w & x) & E & H). cbn [fst snd] in E. destruct (dget w (links b0 two trans evs)) as [y|] eqn:D.
    + injection E as <- ->. apply (links_weights evs w q L). apply dget_In, D.
    + injection E as <- ->. apply (W w q H).
  - apply filter_In in H as [H _]. exact (links_weights evs v q L H).
Qed.

Lemma uprepare s done sh w : uinv s done sh w ->
  exists s' b1 e1, match m, mt s with
    | _, 0 => new_tree s true | _, 1 => new_tree s false | PriorFeedback, _ => on_tree s reset_factors | SoftEvidence, _ => (s, Ok tt) end = (s', Ok tt) /\
    tknows s' (is_nil done) b1 e1 /\ same_arcs b1 (net_ done) /\ same_rest s s'.
Proof.
  intros V. assert (P := ui_same _ _ _ _ V). assert (N := unet s done P). rewrite (us_t _ _ P). destruct done as [|e [|e' done]]; cbn [length is_nil] in *.
  - destruct (u_created s true (net_ []) N (net_suited []) (net_nonneg [] I)) as (s' & E & K & R). exists s', (net_ []), []. split; [destruct m; exact E|]. split; [exact K|]. split; [reflexivity|exact R].
  - destruct (u_created s false (net_ [e]) N (net_suited [e]) (net_nonneg [e] (us_legal _ _ P))) as (s' & E & K & R). exists s', (net_ [e]), []. split; [destruct m; exact E|]. split; [exact K|]. split; [reflexivity|exact R].
  - assert (X : exists b1 e1, tknows s false b1 e1 /\ same_arcs b1 (net_ (e :: e' :: done))).
    { assert (S := ui_shown _ _ _ _ V). destruct sh as [[|x evs]|]; [contradiction| |destruct S; discriminate]. destruct S as (_ & _ & [->|EQ] & K).
      - eexists _, _. split; [exact K|reflexivity].
      - injection EQ as <- <-. eexists _, _. split; [exact K|apply net_arcs]. }
    destruct X as (b1 & e1 & K & A). destruct m eqn:EM.
    + destruct (u_reset s false b1 e1 _ K A (net_wf _) (net_nonneg _ (us_legal _ _ P)) N) as (s' & E & K' & R). eexists s', _, []. split; [exact E|]. split; [exact K'|]. split; [reflexivity|exact R].
    + exists s, b1, e1. split; [reflexivity|]. split; [exact K|]. split; [exact A|apply same_rest_refl].
Qed.

Lemma uset s done sh w ev kw ev' : uinv s done sh w -> proper ev -> ~ refused m kw -> left_by b0 two trans m done ev kw ev' ->
  let r := set_evidence_ m s ev kw in
  tknows (fst r) (is_nil done) (net_ done) ev' /\ same_rest s (fst r) /\ (forall x, snd r = Err x <-> faulty b0 two trans m done ev kw x) /\
  fitting_evidence b0 two done ev'.
Proof.
  intros V [ND W] NR LV. assert (P := ui_same _ _ _ _ V). unfold left_by in LV. rewrite read_net_eq in LV. fold (ev_ done ev) in LV.
  assert (ND' := ev_keys done ev ND). assert (W' := ev_weights done ev (us_legal _ _ P) W).
  destruct (uprepare s done sh w V) as (s1 & b1 & e1 & E1 & K1 & A1 & R1).
  assert (N1 : slice_net s1 (is_nil done) = net_ done) by (rewrite (slice_net_same _ _ _ R1); apply unet, P).
  destruct (u_set s1 (is_nil done) b1 e1 (net_ done) (read_post m kw) (ev_ done ev) ev' K1 A1 (net_wf done) (net_nonneg done (us_legal _ _ P)) N1 ND' W' LV) as (K2 & R2 & F2).
  destruct (leaves_legal _ _ _ _ (net_wf done) (net_nonneg done (us_legal _ _ P)) ND' W' LV) as [G1 G2].
  cbv zeta. replace (set_evidence_ m s ev kw) with (on_tree s1 (fun b t => set_evidence b (ev_ done ev) (read_post m kw) t)).
  - split; [exact K2|]. split; [exact (same_rest_trans _ _ _ R1 R2)|]. split; [|apply net_fits; assumption].
    intros x. unfold faulty. rewrite read_net_eq. apply F2.
  - unfold set_evidence_. destruct m eqn:EM.
    + rewrite E1. cbn [seq_calls]. unfold ev_, read_ev. rewrite EM. reflexivity.
    + destruct kw as [x|]; [destruct NR; split; [reflexivity|discriminate]|].
      rewrite E1. cbn [seq_calls].
      assert (EV : ev_ done ev = match mt s with 0 => given ev | S _ => dupdate (given ev) (map (fun p => (fst p, Soft (data (snd p)))) (mtrans s)) end); [|rewrite EV; reflexivity].
      unfold ev_, read_ev. rewrite EM. rewrite (us_t _ _ P), (us_links _ _ P EM). destruct done as [|e done]; cbn [length].
      * unfold updated. cbn [links filter]. rewrite app_nil_r. rewrite <- (map_id (given ev)) at 2. apply map_ext. intros [v y]. reflexivity.
      * rewrite (links_fed done e EM). symmetry. apply updated_dupdate; [apply links_keys|exact ND].
Qed.

(** ** Going on *)
Lemma uunroll s done e : usame s done -> fitting_evidence b0 two done e -> tknows s (is_nil done) (net_ done) e ->
  exists s', unroll_ m s = (s', Ok tt) /\ usame s' (e :: done) /\ tknows s' (is_nil done) (net_ done) e /\ mflag s' = mflag s.
Proof.
  intros P F K. unfold unroll_. rewrite (us_trans _ _ P). destruct m eqn:EM.
  - set (B := match done with [] => two | _ => sb done end).
    assert (SA : same_arcs B two). { unfold B. destruct done; [reflexivity|]. cbn [slice_bn]. apply same_arcs_sym, fed_arcs. }
    assert (WB : wf_bn B). { unfold B. destruct done; [exact W2|apply sb_wf]. }
    assert (BV : bvars B = bvars two). { unfold B. destruct done; [reflexivity|]. cbn [slice_bn]. apply fed_bvars. }
    assert (NE : net_ done = sb done) by (unfold net_; rewrite EM; reflexivity). rewrite NE in K.
    assert (TW : slice_net s false = B). { rewrite (us_two _ _ P). unfold B. destruct done; [reflexivity|exact NE]. }
    destruct (ufeed_all done e trans (incl_refl _) (wi_nodup _ _ _ WI) s B K (us_named _ _ P) (us_kinds _ _ P) TW SA WB BV)
      as (s1 & E1 & K1 & NM1 & KD1 & SN1 & A1 & A2 & A3).
    rewrite E1. cbn [seq_calls]. exists (tick s1). split; [reflexivity|]. rewrite NE. split; [|split; [apply tknows_tick, K1|exact A3]]. constructor.
    + cbn. rewrite A2, (us_t _ _ P). reflexivity.
    + cbn. rewrite A1. apply P.
    + exact NM1.
    + exact KD1.
    + split; [exact F|apply P].
    + discriminate.
    + change (slice_net (tick s1) false) with (slice_net s1 false). rewrite SN1. unfold net_. rewrite EM. cbn [slice_bn]. unfold B. destruct done as [|e' done]; [reflexivity|].
      cbn [slice_bn]. apply fed_again. unfold fed_tables, dkeys. rewrite !map_map. cbn. auto.
    + congruence.
  - destruct (ufeed_soft (net_ done) e (is_nil done) trans (net_trans done) (wi_nodup _ _ _ WI) (with_trans s [])) as (s1 & E1 & K1 & A1 & A2 & A3 & A4 & A5).
    { destruct K as (t & b' & X). exists t, b'. exact X. } { cbn. auto. }
    rewrite E1. cbn [seq_calls]. exists (tick s1). cbn [with_trans mheap mdbn mt mflag mtrans] in *. split; [reflexivity|].
    split; [|split; [apply tknows_tick, K1|exact A4]]. constructor; cbn [tick mt mheap mdbn mtrans]; rewrite ?A1, ?A2, ?A3; try apply P.
    + rewrite (us_t _ _ P). reflexivity.
    + split; [exact F|apply P].
    + discriminate.
    + unfold slice_net. cbn [tick mheap mdbn]. rewrite A1, A2. assert (X := us_two _ _ P). unfold slice_net in X. rewrite X. unfold net_. rewrite EM. destruct done; reflexivity.
    + intros _. rewrite A5. reflexivity.
Qed.

Lemma uflags s ev w : mflag s = w -> (sets w ev <-> negb (mflag s) || match ev with Some _ => true | None => false end = true).
Proof. intros ->. unfold sets. destruct w, ev; cbn; split; intros; auto; try (destruct H; congruence); try discriminate; right; discriminate. Qed.

Lemma ushown_set s done ev' x : fitting_evidence b0 two done ev' -> legal_evs b0 two done -> tknows s (is_nil done) (net_ done) ev' -> ushown (with_flag s x) done (Some (ev' :: done)).
Proof. intros F L K. cbn. split; [exact F|]. split; [exact L|]. split; [left; reflexivity|]. apply tknows_flag, K. Qed.

Lemma set_same_flag s done ev' : fitting_evidence b0 two done ev' -> legal_evs b0 two done -> tknows s (is_nil done) (net_ done) ev' -> ushown s done (Some (ev' :: done)).
Proof. intros F L K. cbn. split; [exact F|]. split; [exact L|]. split; [left; reflexivity|exact K]. Qed.

Lemma refused_dec kw : {refused m kw} + {~ refused m kw}.
Proof. unfold refused. destruct m, kw; try (right; intros [? ?]; congruence). left. split; congruence. Qed.

Lemma uinv_evidence s done sh w ev kw ev' : uinv s done sh w -> proper ev -> left_by b0 two trans m done ev None ev' ->
  let r := mexec m s (MEvidence ev kw) in
  (forall x, snd r = Err x <-> faulty b0 two trans m done ev None x) /\
  uinv (fst r) done (Some (ev' :: done)) (match snd r with Ok _ => true | Err _ => w end).
Proof.
  intros V PR LV. assert (P := ui_same _ _ _ _ V). destruct (uset s done sh w ev None ev' V PR) as (K & R & F & FE); [intros [_ C]; congruence|exact LV|].
  cbv zeta. cbn [mexec]. unfold dset_evidence. destruct (set_evidence_ m s ev None) as [s1 [u|y]]; cbn [fst snd seq_calls] in *.
  - split; [destruct u; exact F|]. constructor; [apply usame_flag, (usame_rest s); assumption|reflexivity|eauto|apply ushown_set; [exact FE|apply P|exact K]].
  - split; [exact F|]. constructor; [apply (usame_rest s); assumption| |eauto|apply set_same_flag; [exact FE|apply P|exact K]].
    destruct R as (_ & _ & _ & -> & _). apply V.
Qed.

Lemma uinv_unroll s done sh w ev kw ev' : uinv s done sh w -> proper ev -> sets w ev -> ~ refused m kw -> left_by b0 two trans m done ev kw ev' ->
  let r := mexec m s (MUnroll ev kw) in
  (forall x, snd r = Err x <-> faulty b0 two trans m done ev kw x) /\
  match snd r with Ok _ => uinv (fst r) (ev' :: done) (Some (ev' :: done)) false | Err _ => uinv (fst r) done (Some (ev' :: done)) w end.
Proof.
  intros V PR SE NR LV. assert (P := ui_same _ _ _ _ V). destruct (uset s done sh w ev kw ev' V PR NR LV) as (K & R & F & FE).
  cbv zeta. cbn [mexec]. unfold dunroll. rewrite (proj1 (uflags s ev w (ui_flag _ _ _ _ V)) SE).
  destruct (set_evidence_ m s ev kw) as [s1 [u|y]]; cbn [fst snd seq_calls] in *.
  - assert (P1 : usame s1 done) by (apply (usame_rest s); assumption).
    destruct (uunroll s1 done ev' P1 FE K) as (s2 & E2 & P2 & K2 & F2). rewrite E2. cbn [seq_calls fst snd].
    split; [intros x; rewrite <- F; split; discriminate|]. constructor; [apply usame_flag, P2|reflexivity|discriminate|].
    cbn. split; [exact FE|]. split; [apply P|]. split; [right; reflexivity|]. apply tknows_flag, K2.
  - split; [exact F|]. constructor; [apply (usame_rest s); assumption| |eauto|apply set_same_flag; [exact FE|apply P|exact K]].
    destruct R as (_ & _ & _ & -> & _). apply V.
Qed.

Lemma uinv_refused s done sh w ev kw : uinv s done sh w -> sets w ev -> refused m kw -> mexec m s (MUnroll ev kw) = (s, Err TypeError).
Proof.
  intros V SE [-> NK]. cbn [mexec]. unfold dunroll. rewrite (proj1 (uflags s ev w (ui_flag _ _ _ _ V)) SE). unfold set_evidence_. destruct kw; [reflexivity|congruence].
Qed.

Lemma uinv_waiting s done sh ev kw : uinv s done sh true -> ev = None -> exists e, sh = Some (e :: done) /\
  let r := mexec m s (MUnroll ev kw) in snd r = Ok tt /\ uinv (fst r) (e :: done) (Some (e :: done)) false.
Proof.
  intros V ->. assert (P := ui_same _ _ _ _ V). destruct (ui_wait _ _ _ _ V eq_refl) as (e & ->). exists e. split; [reflexivity|].
  destruct (ui_shown _ _ _ _ V) as (F & L & _ & K). cbv zeta. cbn [mexec]. unfold dunroll. rewrite (ui_flag _ _ _ _ V). cbn [negb orb seq_calls].
  destruct (uunroll s done e P F K) as (s2 & E2 & P2 & K2 & F2). rewrite E2. cbn [seq_calls fst snd]. split; [reflexivity|].
  constructor; [apply usame_flag, P2|reflexivity|discriminate|].
  cbn. split; [exact F|]. split; [exact L|]. split; [right; reflexivity|]. apply tknows_flag, K2.
Qed.

Lemma uinv_query s done sh w Q : uinv s done sh w -> uinv (fst (mexec m s (MQuery Q))) done sh w.
Proof.
  intros V. cbn [mexec fst]. assert (R := query_rest s Q). constructor.
  - apply (usame_rest s); [apply V|exact R].
  - destruct R as (_ & _ & _ & -> & _). apply V.
  - apply V.
  - assert (X := ui_shown _ _ _ _ V). destruct sh as [[|e evs]|]; [exact X| |].
    + destruct X as (X1 & X2 & X3 & X4). cbn. repeat (split; [assumption|]). apply u_query, X4.
    + destruct X as [X1 X2]. split; [exact X1|]. unfold dmarginals, on_tree. rewrite X2. exact X2.
Qed.

Theorem uses_inv s done sh w : uses m h d s done sh w -> uinv s done sh w.
Proof.
  induction 1 as [|s done sh w ev kw ev' U IH PR b0' two' NF LV|s done sh w ev kw x ev' U IH PR b0' two' F LV|s done sh w ev kw ev' U IH PR SE NR b0' two' NF LV
    |s done sh w ev kw x ev' U IH PR SE NR b0' two' F LV|s done sh w ev kw U IH SE RF|s done e kw U IH|s done sh w Q U IH].
  - exact ucreate.
  - destruct (uinv_evidence s done sh w ev kw ev' IH PR LV) as [E V]. destruct (snd (mexec m s (MEvidence ev kw))) as [u|y]; [exact V|]. destruct (NF y). apply E. reflexivity.
  - destruct (uinv_evidence s done sh w ev kw ev' IH PR LV) as [E V]. rewrite (proj2 (E x) F) in V. exact V.
  - destruct (uinv_unroll s done sh w ev kw ev' IH PR SE NR LV) as [E V]. destruct (snd (mexec m s (MUnroll ev kw))) as [u|y]; [exact V|]. destruct (NF y). apply E. reflexivity.
  - destruct (uinv_unroll s done sh w ev kw ev' IH PR SE NR LV) as [E V]. rewrite (proj2 (E x) F) in V. exact V.
  - rewrite (uinv_refused s done sh w ev kw IH SE RF). exact IH.
  - destruct (uinv_waiting s done _ None kw IH eq_refl) as (e' & E & _ & V). injection E as <-. exact V.
  - exact (uinv_query s done sh w Q IH).
Qed.

(** ** Every call *)
Lemma uleft s done sh w ev kw : uinv s done sh w -> proper ev -> exists ev', left_by b0 two trans m done ev kw ev'.
Proof.
  intros V [ND W]. assert (P := ui_same _ _ _ _ V). unfold left_by. rewrite read_net_eq.
  apply leaves_total; [apply net_wf|apply net_nonneg, P|apply ev_keys, ND|apply ev_weights; [apply P|exact W]].
Qed.

Lemma sets_dec w ev : sets w ev \/ (w = true /\ ev = None).
Proof. unfold sets. destruct w; [|auto]. destruct ev; [left; right; discriminate|auto]. Qed.

Theorem uses_step s done sh w c : uses m h d s done sh w -> proper_call c -> exists done' sh' w', uses m h d (fst (mexec m s c)) done' sh' w'.
Proof.
  intros U PR. assert (V := uses_inv _ _ _ _ U). destruct c as [ev kw|ev kw|Q]; cbn [proper_call] in PR.
  - destruct (uleft s done sh w ev None V PR) as (ev' & LV). destruct (uinv_evidence s done sh w ev kw ev' V PR LV) as [E _].
    destruct (snd (mexec m s (MEvidence ev kw))) as [u|x].
    + do 3 eexists. eapply U_evidence; [exact U|exact PR| |exact LV]. intros x F. apply E in F. discriminate.
    + do 3 eexists. eapply U_evidence_raises; [exact U|exact PR|apply (E x); reflexivity|exact LV].
  - destruct (sets_dec w ev) as [SE|[-> ->]].
    + destruct (refused_dec kw) as [RF|NR]; [do 3 eexists; eapply U_unroll_refused; eassumption|].
      destruct (uleft s done sh w ev kw V PR) as (ev' & LV). destruct (uinv_unroll s done sh w ev kw ev' V PR SE NR LV) as [E _].
      destruct (snd (mexec m s (MUnroll ev kw))) as [u|x].
      * do 3 eexists. eapply U_unroll; [exact U|exact PR|exact SE|exact NR| |exact LV]. intros x F. apply E in F. discriminate.
      * do 3 eexists. eapply U_unroll_raises; [exact U|exact PR|exact SE|exact NR|apply (E x); reflexivity|exact LV].
    + destruct (ui_wait _ _ _ _ V eq_refl) as (e & ->). do 3 eexists. eapply U_unroll_waiting, U.
  - do 3 eexists. apply U_query, U.
Qed.

Theorem uses_all cs : Forall proper_call cs -> exists done sh w, uses m h d (mrun m (mcreate m h d) cs) done sh w.
Proof.
  assert (G : forall cs s done sh w, Forall proper_call cs -> uses m h d s done sh w -> exists done' sh' w', uses m h d (mrun m s cs) done' sh' w').
  { induction cs0 as [|c cs0 IH]; intros s done sh w F U; [eauto|]. inversion F as [|? ? F1 F2]; subst.
    destruct (uses_step s done sh w c U F1) as (done' & sh' & w' & U'). cbn [mrun]. eapply IH; eauto. }
  intros F. eapply G; [exact F|apply U_create].
Qed.

Theorem uses_evidence s done sh w ev kw x : uses m h d s done sh w -> proper ev ->
  (snd (mexec m s (MEvidence ev kw)) = Err x <-> faulty b0 two trans m done ev None x).
Proof.
  intros U PR. assert (V := uses_inv _ _ _ _ U). destruct (uleft s done sh w ev None V PR) as (ev' & LV). apply (uinv_evidence s done sh w ev kw ev' V PR LV).
Qed.

Theorem uses_unroll s done sh w ev kw x : uses m h d s done sh w -> proper ev ->
  (snd (mexec m s (MUnroll ev kw)) = Err x <-> sets w ev /\ (refused m kw /\ x = TypeError \/ ~ refused m kw /\ faulty b0 two trans m done ev kw x)).
Proof.
  intros U PR. assert (V := uses_inv _ _ _ _ U). destruct (sets_dec w ev) as [SE|[-> ->]].
  - destruct (refused_dec kw) as [RF|NR].
    + rewrite (uinv_refused s done sh w ev kw V SE RF). cbn [snd]. split; [intros E; injection E as <-; auto|]. intros (_ & [[_ ->]|[N _]]); [reflexivity|contradiction].
    + destruct (uleft s done sh w ev kw V PR) as (ev' & LV). destruct (uinv_unroll s done sh w ev kw ev' V PR SE NR LV) as [E _]. rewrite E. split; [auto|].
      intros (_ & [[R _]|[_ F]]); [contradiction|exact F].
  - destruct (uinv_waiting s done sh None kw V eq_refl) as (e & _ & E & _). rewrite E. split; [discriminate|]. intros ([C|C] & _); congruence.
Qed.

Theorem uses_time s done sh w : uses m h d s done sh w -> mt s = length done /\ mflag s = w.
Proof. intros U. assert (V := uses_inv _ _ _ _ U). split; [apply V|]. apply V. Qed.

Theorem uses_nothing s done w Q : uses m h d s done None w -> done = [] /\ snd (dmarginals s Q) = Err AttributeError.
Proof. intros U. destruct (ui_shown _ _ _ _ (uses_inv _ _ _ _ U)) as [E T]. split; [exact E|]. unfold dmarginals, on_tree. rewrite T. reflexivity. Qed.

Theorem uses_answer s done e evs w Q : uses m h d s done (Some (e :: evs)) w ->
  (evs = done \/ done = e :: evs) /\
  exists t, mtree s = Some (Nat.eqb (length evs) 0, t) /\
  (NoDup Q -> answers t Q -> exists f, snd (dmarginals s Q) = Ok f /\ reports (read_net b0 two trans m evs) f Q (posterior (read_net b0 two trans m evs) e)) /\
  (forall x, snd (dmarginals s Q) = Err x <-> x = ValueError /\ ~ answers t Q) /\
  forall n, In n (bnodes (slice_base b0 two (length evs))) -> incl Q (dn_name n :: map fst (dn_parents n)) -> answers t Q.
Proof.
  intros U. destruct (ui_shown _ _ _ _ (uses_inv _ _ _ _ U)) as (_ & _ & D & K). split; [exact D|]. rewrite read_net_eq.
  destruct (u_answer s _ _ e Q K) as (t & E & A1 & A2 & A3). exists t. split; [rewrite E; destruct evs; reflexivity|]. split; [exact A1|]. split; [exact A2|].
  intros n Hn I. assert (X : exists n', In n' (bnodes (net_ evs)) /\ dn_name n' = dn_name n /\ dn_parents n' = dn_parents n).
  { unfold net_. destruct m; [|eauto]. destruct evs as [|e' evs]; [eauto|]. cbn [slice_bn]. exists (fed1 (fed_tables trans (sb evs) e') n). rewrite fed1_name, fed1_parents.
    split; [exact (in_map _ _ _ Hn)|auto]. }
  destruct X as (n' & Hn' & E1 & E2). rewrite <- E1, <- E2 in I. exact (A3 n' Hn' I).
Qed.
End Uses.
