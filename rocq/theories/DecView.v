(** Decision networks as seen by the elimination code. *)
From Verif Require Import Base BaseFacts NDArray NDArrayFacts SumCalc Factor FactorFacts Exact Spec SpecFacts Node Network NetSpec NetFacts NetInv
  NetView NetTable Decision DecSpec DecInv DecVE.

Definition dvals (w : dworld) (q : string) : list string :=
  match dget q (dlook w) with Some i => nvalues (deref (dheap w) i) | None => [] end.

Section View.
Variable w : dworld.
Hypothesis I : dinv w.

Lemma dvals_holds v i n : dholds w v i n -> dvals w v = nvalues n.
Proof. intros [D H]. unfold dvals. rewrite D, (deref_ok _ _ _ H). reflexivity. Qed.

Lemma dnamed v i n : dholds w v i n -> nname n = v.
Proof. intros [D H]. destruct (di_named w I v i D) as (m & A & B & _). congruence. Qed.

Lemma dparent v i n q : dholds w v i n -> In q (nporder n) ->
  exists o m, dholds w q o m /\ has_values m /\ parent_values (dheap w) n q = Ok (dvals w q).
Proof.
  intros H Iq. destruct (dk_parents _ _ (di_ok w I i n (proj2 H)) q Iq) as (o & m & A & B & C & K).
  assert (D := di_same w I v i n q H Iq). rewrite A in D. symmetry in D. exists o, m. split; [split; assumption|]. split; [exact K|].
  rewrite (dvals_holds q o m (conj D B)). unfold parent_values, dget_err, hget, values_attr. rewrite A. cbn. rewrite B. cbn.
  destruct K as [-> | ->]; reflexivity.
Qed.

Lemma dparent_values v i n q : dholds w v i n -> In q (nporder n) -> parent_values (dheap w) n q = Ok (dvals w q).
Proof. intros H Iq. destruct (dparent v i n q H Iq) as (_ & _ & _ & _ & E). exact E. Qed.

Lemma dshown v i n : dholds w v i n -> dn_parents (snapshot_node (dheap w) n) = map (fun q => (q, dvals w q)) (nporder n).
Proof. intros H. cbn. apply map_ext_in. intros q Iq. rewrite (dparent_values v i n q H Iq). reflexivity. Qed.

Lemma dshape v i n : dholds w v i n -> shape (tarr (ncpd n)) = own_dims n ++ map (fun q => length (dvals w q)) (nporder n).
Proof.
  intros H. rewrite (dk_shape _ _ (di_ok w I i n (proj2 H))). f_equal. apply map_ext_in. intros q Iq.
  unfold pvals. rewrite (dparent_values v i n q H Iq). reflexivity.
Qed.

Lemma dobj_In P d : In d (dobjects w P) <-> exists v i n, dholds w v i n /\ P n = true /\ d = snapshot_node (dheap w) n.
Proof.
  unfold dobjects. rewrite in_map_iff. split.
  - intros (n & <- & Hn). apply filter_In in Hn as [Hn Pn]. apply in_map_iff in Hn as ((v & i) & E & Hp). cbn in E.
    apply In_dget in Hp; [|apply I]. destruct (di_named w I v i Hp) as (m & A & B & C). rewrite (deref_ok _ _ _ A) in E. subst m.
    exists v, i, n. split; [split; assumption|]. auto.
  - intros (v & i & n & [D H] & Pn & ->). exists n. split; [reflexivity|]. apply filter_In. split; [|exact Pn].
    apply in_map_iff. exists (v, i). split; [apply (deref_ok _ _ _ H)|apply dget_In, D].
Qed.

Lemma names_eq P : map dn_name (dobjects w P) = map fst (filter (fun p => P (deref (dheap w) (snd p))) (dlook w)).
Proof.
  unfold dobjects. rewrite map_map. assert (G : forall l, incl l (dlook w) ->
    map (fun x => dn_name (snapshot_node (dheap w) x)) (filter P (map (fun p => deref (dheap w) (snd p)) l)) =
    map fst (filter (fun p => P (deref (dheap w) (snd p))) l)).
  { induction l as [|(v & i) l IH]; intros S; [reflexivity|]. cbn. assert (E := IH (fun x Hx => S x (or_intror Hx))).
    destruct (P (deref (dheap w) i)); [|exact E]. cbn. rewrite <- E. f_equal.
    assert (D : dget v (dlook w) = Some i) by (apply In_dget; [apply I|apply S; left; reflexivity]).
    destruct (di_named w I v i D) as (m & A & B & _). rewrite (deref_ok _ _ _ A). exact B. }
  apply G, incl_refl.
Qed.

Lemma chance_names_eq : chance_names w = bnames (dbn w).
Proof.
  unfold chance_names, bnames. cbn. rewrite names_eq. apply map_ext_in. intros (v & i) Hp. apply filter_In in Hp as [Hp _].
  apply In_dget in Hp; [|apply I]. destruct (di_named w I v i Hp) as (m & A & B & _). cbn. rewrite (deref_ok _ _ _ A). exact B.
Qed.

Lemma NoDup_map_filter {A B} (f : A -> B) (P : A -> bool) l : NoDup (map f l) -> NoDup (map f (filter P l)).
Proof.
  induction l as [|x l IH]; cbn; intros N; [constructor|]. inversion N as [|? ? N1 N2]; subst. destruct (P x); [|apply IH, N2].
  cbn. constructor; [|apply IH, N2]. intros X. apply N1. apply in_map_iff in X as (y & E & Hy). apply filter_In in Hy.
  apply in_map_iff. exists y. tauto.
Qed.

Lemma obj_names_NoDup P : NoDup (map dn_name (dobjects w P)).
Proof. rewrite names_eq. apply NoDup_map_filter, I. Qed.

Hypothesis T : dtidy w.

Lemma chance_kind v i n : dholds w v i n -> is_utility n = false -> has_values n.
Proof.
  intros [D H] U. destruct (di_named w I v i D) as (m & A & _ & K). assert (m = n) by congruence. subst m.
  unfold is_utility in U. unfold has_values. destruct (nkind n); tauto || discriminate.
Qed.

Lemma own_dims_values n : has_values n -> nvalues n <> [] -> own_dims n = [length (nvalues n)].
Proof. intros K N. unfold own_dims. destruct K as [-> | ->]; destruct (nvalues n); try contradiction; reflexivity. Qed.

Lemma has_not_utility n : has_values n -> is_utility n = false.
Proof. intros [K|K]; unfold is_utility; rewrite K; reflexivity. Qed.
Lemma has_not_utility_kind n : has_values n -> nkind n <> KUtility.
Proof. intros [K|K]; congruence. Qed.

Lemma dbn_wf : wf_bn (dbn w).
Proof.
  constructor; [apply obj_names_NoDup|]. intros d Hd. apply dobj_In in Hd as (v & i & n & H & U & ->).
  apply negb_true_iff in U. assert (K := chance_kind v i n H U). destruct (T v i n H (has_not_utility_kind n K)) as [NE ND].
  pose proof (di_ok w I i n (proj2 H)) as D.
  constructor.
  - split; assumption.
  - rewrite (dshown v i n H), map_map. cbn [fst]. rewrite map_id. apply D.
  - intros p vals Ip. rewrite (dshown v i n H) in Ip. apply in_map_iff in Ip as (q & E & Iq). injection E as -> <-.
    destruct (dparent v i n p H Iq) as (o & m & Hm & Km & _). exists (snapshot_node (dheap w) m).
    split; [apply dobj_In; exists p, o, m; split; [exact Hm|]; split; [rewrite (has_not_utility m Km); reflexivity|reflexivity]|].
    split; [exact (dnamed p o m Hm)|symmetry; apply (dvals_holds p o m Hm)].
  - cbn [map]. rewrite (dshown v i n H), map_map. cbn [dn_cpd snapshot_node fst snd dn_values dn_name].
    rewrite (dshape v i n H), (own_dims_values n K NE). reflexivity.
  - apply (dk_arr _ _ D).
  - rewrite (dshown v i n H), map_map. cbn [fst]. rewrite map_id. cbn [dn_pdict snapshot_node]. rewrite (dk_keys _ _ D). reflexivity.
Qed.

Lemma dbn_values v i n : dholds w v i n -> has_values n -> values_of (dbn w) v = nvalues n.
Proof.
  intros H K. assert (N : In (snapshot_node (dheap w) n) (bnodes (dbn w))).
  { apply dobj_In. exists v, i, n. split; [exact H|]. split; [rewrite (has_not_utility n K); reflexivity|reflexivity]. }
  rewrite <- (dnamed v i n H). exact (values_of_node (dbn w) dbn_wf _ N).
Qed.

Lemma dbn_name v i n : dholds w v i n -> has_values n -> In v (bnames (dbn w)).
Proof.
  intros H K. rewrite <- (dnamed v i n H). change (nname n) with (dn_name (snapshot_node (dheap w) n)). apply (in_map dn_name).
  apply dobj_In. exists v, i, n. split; [exact H|]. split; [rewrite (has_not_utility n K); reflexivity|reflexivity].
Qed.

Lemma parent_dvals v i n q : dholds w v i n -> In q (nporder n) -> values_of (dbn w) q = dvals w q /\ In q (bnames (dbn w)).
Proof.
  intros H Iq. destruct (dparent v i n q H Iq) as (o & m & Hm & Km & _).
  rewrite (dbn_values q o m Hm Km), (dvals_holds q o m Hm). split; [reflexivity|]. apply (dbn_name q o m Hm Km).
Qed.

(** Factors of nodes. *)
Lemma append_parents_ok n d : d_ok (dheap w) n ->
  append_parents (dheap w) n d = Ok (fold_left (fun d p => dset (fst p) (snd p) d) (dn_parents (snapshot_node (dheap w) n)) d).
Proof.
  intros D. unfold append_parents. cbn [snapshot_node dn_parents].
  assert (PV : forall q, In q (nporder n) -> parent_values (dheap w) n q = Ok (pvals (dheap w) n q)) by (intros q; apply pvals_ok, D).
  revert d. generalize (nporder n) PV. clear PV. intros l. induction l as [|q l IH]; intros PV d; [reflexivity|].
  cbn [foldM map fold_left fst snd]. rewrite (PV q (or_introl eq_refl)). cbn [rbind].
  apply IH. intros p Hp. apply PV. right; exact Hp.
Qed.

Lemma node_factor_ok v i n : dholds w v i n -> has_values n -> node_factor (dheap w) n = Ok (from_node (snapshot_node (dheap w) n)).
Proof.
  intros H K. unfold node_factor, values_attr. destruct K as [-> | ->]; cbn [rbind];
    rewrite (append_parents_ok n _ (di_ok w I i n (proj2 H))); cbn [rbind]; unfold from_node; cbn [snapshot_node dn_cpd dn_name dn_parents dn_values];
    rewrite map_map; cbn [fst]; rewrite map_id; reflexivity.
Qed.

Lemma utility_factor_ok v i n : dholds w v i n -> nkind n = KUtility ->
  utility_factor (dheap w) n = Ok (mkF (tarr (ncpd n)) (nporder n) (map (fun q => (q, dvals w q)) (nporder n))).
Proof.
  intros H K. pose proof (di_ok w I i n (proj2 H)) as D. unfold utility_factor. rewrite K, (append_parents_ok n _ D). cbn [rbind].
  rewrite (dshown v i n H). rewrite fold_dset_vals; [reflexivity| |intros q _ []]. rewrite map_map. cbn [fst]. rewrite map_id.
  assert (X := dk_names _ _ D). inversion X; assumption.
Qed.

Notation dom := (values_of (dbn w)).

Lemma wf_utility_factor v i n : dholds w v i n -> nkind n = KUtility ->
  wf_factor dom (mkF (tarr (ncpd n)) (nporder n) (map (fun q => (q, dvals w q)) (nporder n))).
Proof.
  intros H K. pose proof (di_ok w I i n (proj2 H)) as D. assert (X := dk_names _ _ D). inversion X as [|? ? _ ND]; subst.
  assert (KE : dkeys (map (fun q => (q, dvals w q)) (nporder n)) = nporder n) by (unfold dkeys; rewrite map_map; apply map_id).
  constructor; cbn [vorder pot fvals].
  - exact ND.
  - rewrite (dshape v i n H). unfold own_dims. rewrite K. cbn. apply map_ext_in. intros q Iq. unfold card.
    rewrite (proj1 (parent_dvals v i n q H Iq)). reflexivity.
  - apply (dk_arr _ _ D).
  - rewrite KE. exact ND.
  - intros q. rewrite KE. tauto.
  - intros q Iq. rewrite (dget_pairs (dvals w) _ q Iq). rewrite (proj1 (parent_dvals v i n q H Iq)). reflexivity.
Qed.
End View.

(** Constant factors over the scope of another factor. *)
Lemma const_factor_ok dom q f : wf_factor dom f -> exists g, const_factor q (vorder f) (fvals f) = Ok g /\ wf_factor dom g /\
  vorder g = vorder f /\ forall a, inrange (card dom) (vorder f) a -> feval g a = q.
Proof.
  intros W. unfold const_factor.
  rewrite (mapM_total _ dom (vorder f)) by (intros v Hv; unfold dget_err; rewrite (wf_vals _ _ W v Hv); reflexivity).
  cbn [rbind]. assert (EC : combine (vorder f) (map dom (vorder f)) = map (fun v => (v, dom v)) (vorder f)).
  { induction (vorder f) as [|v l IH]; cbn; [reflexivity|]. rewrite IH. reflexivity. }
  rewrite EC, fold_dset_vals.
  2: { rewrite map_map. cbn. rewrite map_id. apply W. }
  2: { intros v _ []. }
  cbn [app]. rewrite map_map. eexists. split; [reflexivity|]. split; [|split; [reflexivity|]].
  - apply wf_tabulate; [apply W| | |].
    + unfold dkeys. rewrite map_map. cbn. rewrite map_id. apply W.
    + intros v. unfold dkeys. rewrite map_map. cbn. rewrite map_id. tauto.
    + intros v Hv. apply (dget_pairs dom), Hv.
  - intros a R. apply (feval_tabulate dom (vorder f) (fun _ => q) _ a R).
Qed.

Section Factors.
Variable w : dworld.
Hypothesis I : dinv w.
Hypothesis T : dtidy w.
Hypothesis NN : nonneg_bn (dbn w).
Notation dom := (values_of (dbn w)).
Notation vars := (bnames (dbn w)).

(** What the joint factor of a node should be. *)
Definition pterm (n : node) (a : asg) : Qc := if is_utility n then 1%Qc else feval (from_node (snapshot_node (dheap w) n)) a.
Definition uterm (n : node) (a : asg) : Qc :=
  if is_utility n then aget (tarr (ncpd n)) (map a (nporder n)) else 0%Qc.

Lemma joint_factor_ok v i n : dholds w v i n -> exists j, joint_factor (dheap w) n = Ok j /\ wf_jf dom vars j /\
  (forall u, In u (vorder (fst j)) <-> (is_utility n = false /\ u = v) \/ In u (nporder n)) /\
  forall a, inrange (card dom) vars a -> feval (fst j) a = pterm n a /\ feval (snd j) a = uterm n a.
Proof.
  intros H. unfold joint_factor, pterm, uterm. destruct (is_utility n) eqn:U.
  - assert (K : nkind n = KUtility) by (unfold is_utility in U; destruct (nkind n); congruence).
    rewrite K, (utility_factor_ok w I v i n H K). cbn [rbind]. assert (W := wf_utility_factor w I T v i n H K).
    destruct (const_factor_ok dom 1%Qc _ W) as (p & Ep & Wp & Op & Vp). unfold unit_factor. rewrite Ep. cbn [rbind].
    cbn [vorder] in Op, Vp. assert (IV : incl (nporder n) vars) by (intros q Iq; apply (parent_dvals w I T v i n q H Iq)).
    eexists. split; [reflexivity|]. split; [|split].
    + constructor; cbn [fst snd vorder]; [exact Wp|exact W|rewrite Op; tauto|rewrite Op; exact IV|].
      intros a R. rewrite Vp by (intros q Iq; apply R, IV, Iq). discriminate.
    + intros u. cbn [fst]. rewrite Op. split; [auto|]. intros [[X _]|X]; [discriminate|exact X].
    + intros a R. cbn [fst snd]. rewrite Vp by (intros q Iq; apply R, IV, Iq). split; reflexivity.
  - assert (K := chance_kind w I v i n H U).
    assert (Hn : In (snapshot_node (dheap w) n) (bnodes (dbn w))).
    { apply (dobj_In w I). exists v, i, n. rewrite U. auto. }
    assert (W := wf_from_node (dbn w) (dbn_wf w I T) _ Hn).
    set (f := from_node (snapshot_node (dheap w) n)) in *.
    destruct (const_factor_ok dom 0%Qc f W) as (u & Eu & Wu & Ou & Vu).
    assert (E : joint_factor (dheap w) n = Ok (f, u)).
    { unfold joint_factor. rewrite (node_factor_ok w I v i n H K). cbn [rbind]. fold f. unfold zero_factor. rewrite Eu.
      destruct K as [-> | ->]; reflexivity. }
    unfold joint_factor in E. rewrite E. assert (IV : incl (vorder f) vars) by (intros q; apply (from_node_scope (dbn w) (dbn_wf w I T) _ q Hn)).
    eexists. split; [reflexivity|]. split; [|split].
    + constructor; cbn [fst snd]; [exact W|exact Wu|rewrite Ou; tauto|exact IV|]. intros a R. unfold f, feval. cbn [from_node pot].
      apply nth_Forall_nonneg, NN, Hn.
    + intros q. cbn [fst]. unfold f. cbn [from_node vorder snapshot_node dn_name dn_parents]. rewrite map_map. cbn [fst]. rewrite map_id.
      rewrite (dnamed w I v i n H). cbn. intuition.
    + intros a R. cbn [fst snd]. split; [reflexivity|]. apply Vu. intros q Iq. apply R, IV, Iq.
Qed.

Lemma net_factors_list l : incl l (dlook w) -> exists js,
  mapM (fun p => let* n := hget (dheap w) (snd p) in joint_factor (dheap w) n) l = Ok js /\ Forall (wf_jf dom vars) js /\
  (forall v i n, In (v, i) l -> dholds w v i n -> is_utility n = false -> covered js v) /\
  (forall u, covered js u -> In u vars) /\ (l <> [] -> js <> []) /\
  forall a, inrange (card dom) vars a ->
    PP js a = qprod (map (fun n => feval (from_node (snapshot_node (dheap w) n)) a) (filter (fun n => negb (is_utility n)) (map (fun p => deref (dheap w) (snd p)) l))) /\
    UU js a = qsum (map (fun n => aget (tarr (ncpd n)) (map a (nporder n))) (filter is_utility (map (fun p => deref (dheap w) (snd p)) l))).
Proof.
  induction l as [|(v & i) l IH]; intros S.
  - exists []. split; [reflexivity|]. split; [constructor|]. split; [intros v i n []|]. split; [intros u (f & [] & _)|].
    split; [congruence|]. intros a R. split; reflexivity.
  - destruct (IH (fun x Hx => S x (or_intror Hx))) as (js & E & W & C & V & NE & P).
    assert (D : dget v (dlook w) = Some i) by (apply In_dget; [apply I|apply S; left; reflexivity]).
    destruct (di_named w I v i D) as (n & Hn & Nn & _).
    destruct (joint_factor_ok v i n (conj D Hn)) as (j & Ej & Wj & Oj & Vj).
    exists (j :: js). split; [|split; [|split; [|split; [|split]]]].
    + cbn [mapM snd]. unfold hget at 1. rewrite Hn. cbn [rbind]. rewrite Ej. cbn [rbind]. rewrite E. reflexivity.
    + constructor; assumption.
    + intros u k m [X|X] Hm U.
      * injection X as -> ->. assert (m = n) by (destruct Hm; congruence). subst m.
        exists j. split; [left; reflexivity|]. apply Oj. left. auto.
      * destruct (C u k m X Hm U) as (f & Hf & Hu). exists f. split; [right; exact Hf|exact Hu].
    + intros u (f & [<-|Hf] & Hu); [apply (wj_vars _ _ _ Wj), Hu|]. apply V. exists f. auto.
    + discriminate.
    + intros a R. destruct (P a R) as [P1 P2]. destruct (Vj a R) as [V1 V2]. cbn [map filter snd].
      rewrite (deref_ok _ _ _ Hn). unfold PP, UU. cbn [map qprod qsum]. fold (PP js a) (UU js a). rewrite P1, P2, V1, V2.
      unfold pterm, uterm. destruct (is_utility n); cbn [negb map qprod qsum]; split; ring.
Qed.

Definition ijoint (a : asg) : Qc := qprod (map (fun n => feval (from_node n) a) (bnodes (dbn w))).
Definition iutil (a : asg) : Qc :=
  qsum (map (fun n => aget (tarr (ncpd n)) (map a (nporder n))) (filter is_utility (map (fun p => deref (dheap w) (snd p)) (dlook w)))).

Theorem net_factors_ok : exists js, net_factors w = Ok js /\ Forall (wf_jf dom vars) js /\
  (forall v, In v vars <-> covered js v) /\ (dlook w <> [] -> js <> []) /\
  forall a, inrange (card dom) vars a -> PP js a = ijoint a /\ UU js a = iutil a.
Proof.
  destruct (net_factors_list (dlook w) (incl_refl _)) as (js & E & W & C & V & NE & P).
  exists js. split; [exact E|]. split; [exact W|]. split; [|split; [exact NE|]].
  - intros v. split; [|apply V]. intros Hv. apply in_map_iff in Hv as (d & <- & Hd). apply (dobj_In w I) in Hd as (u & i & n & H & U & ->).
    cbn [dn_name snapshot_node]. rewrite (dnamed w I u i n H). apply (C u i n); [apply dget_In, H|exact H|].
    apply negb_true_iff, U.
  - intros a R. destruct (P a R) as [-> ->]. split; [|reflexivity]. unfold ijoint, dbn, dobjects. cbn [bnodes]. rewrite map_map. reflexivity.
Qed.

Lemma ijoint_ext : ext ijoint.
Proof. intros a c E. unfold ijoint. apply qprod_map_ext. intros n _. apply feval_ext, E. Qed.

Lemma iutil_ext : ext iutil.
Proof. intros a c E. unfold iutil. apply qsum_map_ext. intros n _. f_equal. apply map_ext. exact E. Qed.

Lemma joint_state a : inrange (card dom) vars a -> joint (dbn w) (state_of (bvars (dbn w)) a) = ijoint a.
Proof. intros R. unfold joint, ijoint. apply qprod_map_ext. intros n Hn. apply (entry_state (dbn w) (dbn_wf w I T)); assumption. Qed.

Lemma utilities_state a : inrange (card dom) vars a -> utilities w (state_of (bvars (dbn w)) a) = iutil a.
Proof.
  intros R. unfold utilities, iutil, dutils, dobjects. rewrite map_map. apply qsum_map_ext. intros n Hn.
  apply filter_In in Hn as [Hn U]. apply in_map_iff in Hn as ((v & i) & E & Hp). cbn in E.
  apply In_dget in Hp; [|apply I]. destruct (di_named w I v i Hp) as (m & A & B & _). rewrite (deref_ok _ _ _ A) in E. subst m.
  assert (H : dholds w v i n) by (split; assumption). unfold utility. rewrite (dshown w I v i n H), map_map. cbn [fst snd snapshot_node dn_cpd].
  f_equal. apply map_ext_in. intros q Iq. destruct (parent_dvals w I T v i n q H Iq) as [Eq Nq].
  rewrite (look_state_of (bvars (dbn w)) a q (dom q)).
  - rewrite Eq, position_idx. apply idx_nth.
    + destruct (dparent w I v i n q H Iq) as (o & x & Hx & Kx & _). rewrite (dvals_holds w q o x Hx).
      apply (T q o x Hx (has_not_utility_kind x Kx)).
    + rewrite <- Eq. apply R, Nq.
  - rewrite (bnames_bvars (dbn w)). apply dbn_wf; assumption.
  - apply (bvars_in (dbn w) (dbn_wf w I T) q Nq).
Qed.

Lemma some_range : exists a, inrange (card dom) vars a.
Proof.
  exists (fun _ => 0). intros v Hv. apply (in_bnames (dbn w)) in Hv as (n & Hn & <-). unfold card.
  rewrite (values_of_node (dbn w) (dbn_wf w I T) n Hn). destruct (wn_values _ _ (wb_nodes _ (dbn_wf w I T) n Hn)) as [NE _].
  destruct (dn_values n); [contradiction|cbn; lia].
Qed.
End Factors.
