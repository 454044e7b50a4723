(** What the factor operations of Factor.v compute. *)
From Verif Require Import Base BaseFacts NDArray NDArrayFacts SumCalc Factor.

Section WithDom.
(** The value lists of the variables (shared by all factors). *)
Variable dom : string -> list string.
Definition card (v : string) : nat := length (dom v).

Record wf_factor (f : factor) : Prop := {
  wf_nodup : NoDup (vorder f);
  wf_shape : shape (pot f) = map card (vorder f);
  wf_arr : wfa (pot f);
  wf_keys_nodup : NoDup (dkeys (fvals f));
  wf_keys : forall v, In v (dkeys (fvals f)) <-> In v (vorder f);
  wf_vals : forall v, In v (vorder f) -> dget v (fvals f) = Some (dom v)
}.

Definition feval (f : factor) (a : asg) : Qc := aget (pot f) (map a (vorder f)).

Lemma feval_deps f : deps (vorder f) (feval f).
Proof.
  intros a b H. unfold feval. f_equal. apply map_ext_in. exact H.
Qed.

Lemma feval_ext f : ext (feval f).
Proof. eapply deps_ext, feval_deps. Qed.

Lemma fcontains_spec f v : wf_factor f -> fcontains v f = true <-> In v (vorder f).
Proof. intros W. unfold fcontains. rewrite dmem_In. apply wf_keys, W. Qed.

Lemma wf_trivial q : wf_factor (trivial q).
Proof.
  split; cbn; try constructor; try reflexivity; try tauto.
Qed.

Lemma feval_trivial q a : feval (trivial q) a = q.
Proof. reflexivity. Qed.

Lemma wf_tabulate order g vals :
  NoDup order -> NoDup (dkeys vals) -> (forall v, In v (dkeys vals) <-> In v order) ->
  (forall v, In v order -> dget v vals = Some (dom v)) ->
  wf_factor (mkF (tabulate (map card order) g) order vals).
Proof. intros; split; cbn; auto. apply wfa_tabulate. Qed.

Lemma feval_tabulate order g vals a : inrange card order a ->
  feval (mkF (tabulate (map card order) g) order vals) a = g (map a order).
Proof. intros R. unfold feval; cbn. apply aget_tabulate, inb_map, R. Qed.

(** Two factors over the same axes with the same entries are equal tables. *)
Lemma pot_ext f g : wf_factor f -> wf_factor g -> vorder f = vorder g ->
  (forall a, inrange card (vorder f) a -> feval f a = feval g a) -> pot f = pot g.
Proof.
  intros Wf Wg E H. apply arr_ext.
  - apply Wf. - apply Wg. - rewrite (wf_shape _ Wf), (wf_shape _ Wg), E; reflexivity.
  - intros ix Hi. rewrite (wf_shape _ Wf) in Hi.
    assert (L := inb_length _ _ Hi). rewrite map_length in L.
    rewrite <- (map_asg_of (vorder f) ix) by (try apply Wf; exact L).
    specialize (H (asg_of (vorder f) ix) (inb_asg_of _ _ _ Hi)).
    unfold feval in H. rewrite <- E in H. exact H.
Qed.

Lemma feval_arr f ix : wf_factor f -> inb (shape (pot f)) ix ->
  aget (pot f) ix = feval f (asg_of (vorder f) ix).
Proof.
  intros W Hi. unfold feval. rewrite (wf_shape _ W) in Hi. assert (L := inb_length _ _ Hi).
  rewrite map_length in L. rewrite map_asg_of by (try apply W; exact L). reflexivity.
Qed.

Lemma add_vals_spec extra other d :
  NoDup extra -> (forall v, In v extra -> dget v other = Some (dom v)) ->
  NoDup (dkeys d) ->
  exists d', add_vals extra other d = Ok d' /\ NoDup (dkeys d') /\
    (forall v, In v (dkeys d') <-> In v (dkeys d) \/ In v extra) /\
    (forall v, In v extra -> dget v d' = Some (dom v)) /\
    (forall v, ~ In v extra -> dget v d' = dget v d).
Proof.
  unfold add_vals. intros ND; revert d. induction ND as [|v extra Nv ND IH]; intros d H N; cbn.
  - exists d. split; [reflexivity|]. split; [exact N|]. split; [tauto|]. split; [intros v []|reflexivity].
  - unfold dget_err. rewrite H by (left; reflexivity). cbn.
    destruct (IH (dset v (dom v) d)) as (d' & E & N' & K & V & O).
    + intros w Hw; apply H; right; exact Hw.
    + apply dset_NoDup, N.
    + exists d'. split; [exact E|]. split; [exact N'|]. split; [|split].
      * intros w. rewrite K, In_dkeys_dset. cbn. intuition congruence.
      * intros w [<-|Hw]; [|apply V, Hw]. rewrite O by exact Nv. apply dget_dset_eq.
      * intros w Hw. cbn in Hw. rewrite O by tauto. apply dget_dset_neq. intuition congruence.
Qed.

Lemma NoDup_app_disj {A} (l1 l2 : list A) :
  NoDup l1 -> NoDup l2 -> (forall x, In x l1 -> ~ In x l2) -> NoDup (l1 ++ l2).
Proof.
  induction 1 as [|x l N ND IH]; cbn; intros N2 D; [exact N2|]. constructor.
  - rewrite in_app_iff. intros [H|H]; [contradiction|]. apply (D x); [left; reflexivity|exact H].
  - apply IH; [exact N2|]. intros y Hy; apply D; right; exact Hy.
Qed.

(** [expand] with named axes. *)
Lemma expand_named (a : ndarray) o extra :
  NoDup o -> (forall x, In x o -> ~ In x extra) ->
  shape a = map card o ->
  shape (expand a (length extra)) = map (fun v => if mem v o then card v else 1) (o ++ extra) /\
  forall h, (forall v, In v extra -> h v = 0) ->
     aget (expand a (length extra)) (map h (o ++ extra)) = aget a (map h o).
Proof.
  intros ND D S. split.
  - cbn. rewrite S, map_app. f_equal.
    + apply map_ext_in. intros v Hv. apply mem_In in Hv. rewrite Hv; reflexivity.
    + assert (G : forall v, In v extra -> mem v o = false).
      { intros v Hv. apply mem_nIn. intros H; apply (D v H Hv). }
      clear D. induction extra as [|v extra IH]; cbn; [reflexivity|].
      rewrite G by (left; reflexivity). rewrite <- IH; [reflexivity|].
      intros w Hw; apply G; right; exact Hw.
  - intros h H. rewrite map_app. apply aget_expand.
    + rewrite S, !map_length; reflexivity.
    + apply Forall_forall. intros i Hi. apply in_map_iff in Hi as (v & <- & Hv). apply H, Hv.
Qed.

Context {SO : SetOrder}.

Theorem fcombine_spec op f g : wf_factor f -> wf_factor g ->
  exists h, fcombine op f g = Ok h /\ wf_factor h /\
    (exists extra, vorder h = vorder f ++ extra) /\
    (forall v, In v (vorder h) <-> In v (vorder f) \/ In v (vorder g)) /\
    (forall a, inrange card (vorder h) a -> feval h a = op (feval f a) (feval g a)).
Proof.
  intros Wf Wg. unfold fcombine.
  destruct (vorder f) as [|v0 vf] eqn:Ef.
  { assert (P := wf_arr _ Wf). assert (S := wf_shape _ Wf). rewrite Ef in S; cbn in S.
    rewrite (wfa_rank0 _ P S). rewrite zipb_scalar_l. cbn [rbind].
    eexists; split; [reflexivity|]. rewrite (wf_shape _ Wg).
    split; [apply wf_tabulate; apply Wg|]. cbn [vorder]. split; [|split].
    - exists (vorder g); reflexivity.
    - cbn; tauto.
    - intros a R. rewrite feval_tabulate by exact R. unfold feval at 1. rewrite Ef. reflexivity. }
  destruct (vorder g) as [|w0 vg] eqn:Eg.
  { assert (P := wf_arr _ Wg). assert (S := wf_shape _ Wg). rewrite Eg in S; cbn in S.
    rewrite (wfa_rank0 _ P S). rewrite zipb_scalar_r. cbn [rbind].
    eexists; split; [reflexivity|]. rewrite (wf_shape _ Wf).
    rewrite <- Ef.
    split; [apply wf_tabulate; apply Wf|]. cbn [vorder]. split; [|split].
    - exists []; rewrite app_nil_r; reflexivity.
    - cbn; tauto.
    - intros a R. rewrite feval_tabulate by exact R. unfold feval at 2. rewrite Eg. reflexivity. }
  rewrite <- Ef, <- Eg. clear Ef Eg v0 vf w0 vg.
  set (extra := sdiff (vorder g) (vorder f)).
  assert (NX : NoDup extra) by apply sdiff_nodup.
  assert (SX : forall x, In x extra <-> In x (vorder g) /\ ~ In x (vorder f)) by apply sdiff_spec.
  set (rorder := vorder f ++ extra).
  assert (NR : NoDup rorder).
  { apply NoDup_app_disj; [apply Wf|exact NX|]. intros x H1 H2; apply SX in H2; tauto. }
  assert (SR : forall x, In x rorder <-> In x (vorder f) \/ In x (vorder g)).
  { intros x. unfold rorder. rewrite in_app_iff, SX.
    destruct (In_dec_s x (vorder f)); tauto. }
  set (extra2 := sdiff rorder (vorder g)).
  assert (NX2 : NoDup extra2) by apply sdiff_nodup.
  assert (SX2 : forall x, In x extra2 <-> In x rorder /\ ~ In x (vorder g)) by apply sdiff_spec.
  set (order2 := vorder g ++ extra2).
  assert (N2 : NoDup order2).
  { apply NoDup_app_disj; [apply Wg|exact NX2|]. intros x H1 H2; apply SX2 in H2; tauto. }
  assert (S2 : forall x, In x order2 <-> In x rorder).
  { intros x. unfold order2. rewrite in_app_iff, SX2, SR.
    destruct (In_dec_s x (vorder g)); tauto. }
  destruct (add_vals_spec extra (fvals g) (fvals f)) as (d' & Ed & Nd & Kd & Vd & Od).
  { exact NX. } { intros v Hv. apply SX in Hv. apply (wf_vals _ Wg); tauto. } { apply Wf. }
  rewrite Ed. cbn [rbind].
  rewrite (mapM_total _ (fun v => idx v order2)).
  2: { intros v Hv. apply py_index_ok, S2, Hv. }
  cbn [rbind].
  destruct (expand_named (pot f) (vorder f) extra) as [Sf Af].
  { apply Wf. } { intros x H1 H2; apply SX in H2; tauto. } { apply Wf. }
  destruct (expand_named (pot g) (vorder g) extra2) as [Sg Ag].
  { apply Wg. } { intros x H1 H2; apply SX2 in H2; tauto. } { apply Wg. }
  fold rorder in Sf, Af. fold order2 in Sg, Ag.
  destruct (transpose_named _ order2 rorder _ N2 NR S2 Sg) as (p2 & Et & Wp2 & Sp2 & Ap2).
  rewrite Et. cbn [rbind].
  unfold zipb, rank. rewrite Sf, Sp2, !map_length, Nat.max_id.
  rewrite !padded_id by apply map_length.
  rewrite (bshape_map _ _ card).
  2: { intros v Hv. apply SR in Hv.
       destruct (mem v (vorder f)) eqn:E1, (mem v (vorder g)) eqn:E2; try tauto.
       apply mem_nIn in E1, E2. tauto. }
  cbn [rbind]. eexists; split; [reflexivity|]. split; [|split; [|split]].
  - apply wf_tabulate; [exact NR|exact Nd| |].
    + intros v. rewrite Kd, (wf_keys _ Wf). unfold rorder. rewrite in_app_iff. tauto.
    + intros v Hv. destruct (In_dec_s v extra) as [I|N]; [apply Vd, I|].
      rewrite Od by exact N. apply Wf. unfold rorder in Hv. apply in_app_iff in Hv. tauto.
  - exists extra; reflexivity.
  - exact SR.
  - intros a R. cbn [vorder] in R. rewrite feval_tabulate by exact R. f_equal.
    + rewrite bget_full by (unfold rank; rewrite Sf, !map_length; reflexivity).
      rewrite Sf, clip_map. unfold rorder at 1. rewrite Af.
      * unfold feval. f_equal. apply map_ext_in. intros v Hv.
        assert (M : mem v (vorder f) = true) by (apply mem_In; exact Hv). rewrite M.
        destruct (Nat.eqb_spec (card v) 1) as [E1|_]; [|reflexivity].
        assert (a v < card v) by (apply R, SR; tauto). lia.
      * intros v Hv. apply SX in Hv as [_ Hv]. apply mem_nIn in Hv. rewrite Hv. reflexivity.
    + rewrite bget_full by (unfold rank; rewrite Sp2, !map_length; reflexivity).
      rewrite Sp2, clip_map. rewrite Ap2.
      * unfold order2. rewrite Ag.
        -- unfold feval. f_equal. apply map_ext_in. intros v Hv.
           assert (M : mem v (vorder g) = true) by (apply mem_In; exact Hv). rewrite M.
           destruct (Nat.eqb_spec (card v) 1) as [E1|_]; [|reflexivity].
           assert (a v < card v) by (apply R, SR; tauto). lia.
        -- intros v Hv. apply SX2 in Hv as [_ Hv]. apply mem_nIn in Hv. rewrite Hv. reflexivity.
      * intros v Hv. destruct (mem v (vorder g)).
        -- destruct (Nat.eqb_spec (card v) 1) as [E1|_]; [lia|apply R, Hv].
        -- cbn; lia.
Qed.

(** Marginalisation of one variable. *)
Lemma map_upd_notin a v i l : ~ In v l -> map (upd a v i) l = map a l.
Proof. intros N. apply map_ext_in. intros w Hw. apply upd_neq. intros ->; contradiction. Qed.

Lemma list_insert_upd a v i l : NoDup l -> In v l ->
  list_insert (idx v l) i (map a (remove1 v l)) = map (upd a v i) l.
Proof.
  unfold idx. induction 1 as [|w l N ND IH]; cbn; intros H; [tauto|].
  destruct (String.eqb_spec v w) as [->|n].
  - cbn. rewrite upd_eq. f_equal. symmetry; apply map_upd_notin, N.
  - destruct H as [H|H]; [congruence|]. destruct (index_of v l) as [j|] eqn:E.
    + cbn. rewrite upd_neq by congruence. f_equal. apply IH, H.
    + apply index_of_None in E; contradiction.
Qed.

Theorem marginalize1_spec f v : wf_factor f -> In v (vorder f) ->
  exists h, marginalize1 f v = Ok h /\ wf_factor h /\ vorder h = remove1 v (vorder f) /\
    (forall a, inrange card (vorder h) a ->
       feval h a = bigsum (card v) (fun i => feval f (upd a v i))).
Proof.
  intros W H. unfold marginalize1. rewrite py_index_ok by exact H. cbn [rbind].
  assert (K : dmem v (fvals f) = true) by (apply dmem_In, (wf_keys _ W), H). rewrite K.
  assert (Sh : list_del (idx v (vorder f)) (shape (pot f)) = map card (remove1 v (vorder f))).
  { rewrite (wf_shape _ W), list_del_map. f_equal. symmetry. apply remove1_list_del.
    apply py_index_Ok_iff, py_index_ok, H. }
  eexists; split; [reflexivity|]. split; [|split].
  - unfold sum_axis. rewrite Sh. apply wf_tabulate.
    + apply remove1_NoDup, W.
    + apply ddel_NoDup, W.
    + intros w. rewrite dkeys_ddel, !remove1_In by apply W. rewrite (wf_keys _ W). tauto.
    + intros w Hw. apply remove1_In in Hw as [Hw n]; [|apply W]. rewrite dget_ddel_neq by exact n.
      apply W, Hw.
  - reflexivity.
  - intros a R. cbn [vorder] in R. unfold sum_axis. rewrite Sh, feval_tabulate by exact R.
    rewrite (wf_shape _ W).
    rewrite (nth_indep (map card (vorder f)) 0 (card "")) by (rewrite map_length; apply idx_lt, H).
    rewrite (map_nth card), nth_idx by exact H.
    apply bigsum_ext. intros i Hi. unfold feval. f_equal. apply list_insert_upd; [apply W|exact H].
Qed.

Theorem marginalize_spec f vs : wf_factor f -> NoDup vs -> incl vs (vorder f) ->
  exists h, marginalize f vs = Ok h /\ wf_factor h /\
    (forall v, In v (vorder h) <-> In v (vorder f) /\ ~ In v vs) /\
    (forall a, inrange card (vorder h) a -> feval h a = sum_over card (rev vs) (feval f) a).
Proof.
  unfold marginalize. intros W ND; revert f W. induction ND as [|v vs Nv ND IH]; intros f W I; cbn [foldM].
  - exists f. split; [reflexivity|]. split; [exact W|]. split; [cbn; tauto|]. reflexivity.
  - destruct (marginalize1_spec f v W) as (f1 & E1 & W1 & O1 & V1); [apply I; left; reflexivity|].
    rewrite E1. cbn [rbind].
    destruct (IH f1 W1) as (h & E & Wh & O & V).
    { intros w Hw. rewrite O1, remove1_In by apply W. split; [apply I; right; exact Hw|].
      intros ->; contradiction. }
    exists h. split; [exact E|]. split; [exact Wh|]. split.
    + intros w. rewrite O, O1, remove1_In by apply W. cbn. intuition congruence.
    + intros a R. rewrite V by exact R. cbn [rev]. rewrite sum_over_app.
      apply sum_over_ext_in. intros b Rb Eb. cbn. apply V1.
      intros w Hw. destruct (In_dec_s w (rev vs)) as [Iw|Nw]; [apply Rb, Iw|].
      rewrite Eb by exact Nw. apply R, O. split; [exact Hw|]. rewrite in_rev; exact Nw.
Qed.

Lemma marginalize1_absent f v : wf_factor f -> ~ In v (vorder f) ->
  marginalize1 f v = Err ValueError.
Proof. intros W N. unfold marginalize1. rewrite py_index_err by exact N. reflexivity. Qed.

(** Inversion and division. *)
Lemma Qcinv_0 : (/ 0)%Qc = 0%Qc.
Proof. reflexivity. Qed.

Lemma wf_amap F f : wf_factor f -> wf_factor (mkF (amap F (pot f)) (vorder f) (fvals f)).
Proof. intros W; split; cbn; try apply W. apply wfa_amap, W. Qed.

Lemma feval_amap F f a : wf_factor f -> inrange card (vorder f) a ->
  feval (mkF (amap F (pot f)) (vorder f) (fvals f)) a = F (feval f a).
Proof.
  intros W R. unfold feval; cbn [pot vorder]. apply aget_amap; [apply W|].
  rewrite (wf_shape _ W). apply inb_map, R.
Qed.

Lemma finvert_spec f : wf_factor f -> (vorder f = [] -> feval f (fun _ => 0) <> 0%Qc) ->
  exists h, finvert f = Ok h /\ wf_factor h /\ vorder h = vorder f /\ fvals h = fvals f /\
    forall a, inrange card (vorder f) a -> feval h a = (/ feval f a)%Qc.
Proof.
  intros W T. unfold finvert. destruct (vorder f) as [|v l] eqn:E.
  - assert (P := wfa_rank0 _ (wf_arr _ W)). rewrite (wf_shape _ W), E in P. specialize (P eq_refl).
    specialize (T eq_refl). unfold feval in T. rewrite E in T. cbn in T.
    rewrite P. cbn [scalar data existsb]. rewrite orb_false_r.
    replace (qeqb _ 0%Qc) with false by (symmetry; apply qeqb_false, T).
    eexists; split; [reflexivity|]. rewrite <- P, <- E. split; [apply wf_amap, W|].
    split; [reflexivity|]. split; [reflexivity|]. intros a R. apply feval_amap; assumption.
  - rewrite <- E. eexists; split; [reflexivity|]. split; [apply wf_amap, W|].
    split; [reflexivity|]. split; [reflexivity|]. intros a R. rewrite feval_amap by assumption.
    destruct (qeqb (feval f a) 0%Qc) eqn:Z; [|reflexivity]. apply qeqb_true in Z. rewrite Z; reflexivity.
Qed.

Theorem fdiv_spec f g : wf_factor f -> wf_factor g -> incl (vorder g) (vorder f) ->
  (vorder g = [] -> feval g (fun _ => 0) <> 0%Qc) ->
  exists h, fdiv f g = Ok h /\ wf_factor h /\
    (forall v, In v (vorder h) <-> In v (vorder f)) /\
    (forall a, inrange card (vorder h) a -> feval h a = (feval f a / feval g a)%Qc).
Proof.
  intros Wf Wg I T. unfold fdiv.
  replace (subset _ _) with true.
  2: { symmetry; apply subset_spec. intros v Hv. apply (wf_keys _ Wf), I, (wf_keys _ Wg), Hv. }
  destruct (finvert_spec g Wg T) as (i & Ei & Wi & Oi & _ & Vi). rewrite Ei. cbn [rbind].
  destruct (fcombine_spec Qcmult f i Wf Wi) as (h & Eh & Wh & _ & Oh & Vh).
  exists h. split; [exact Eh|]. split; [exact Wh|]. split.
  - intros v. rewrite Oh, Oi. split; [intros [H|H]; auto|auto].
  - intros a R. rewrite Vh by exact R. unfold Qcdiv. f_equal. apply Vi.
    intros v Hv. apply R, Oh. right; rewrite Oi; exact Hv.
Qed.

Lemma fdiv_scope_error f g : wf_factor f -> wf_factor g ->
  ~ incl (vorder g) (vorder f) -> fdiv f g = Err ValueError.
Proof.
  intros Wf Wg N. unfold fdiv. destruct (subset _ _) eqn:E; [|reflexivity].
  exfalso; apply N. apply subset_spec in E. intros v Hv.
  apply (wf_keys _ Wf), E, (wf_keys _ Wg), Hv.
Qed.

(** Normalisation. *)
Definition ftotal (f : factor) : Qc := sum_over card (vorder f) (feval f) (fun _ => 0).

Lemma asum_total f : wf_factor f -> asum (pot f) = ftotal f.
Proof.
  intros W. rewrite asum_aget by apply W. rewrite (wf_shape _ W).
  rewrite sum_indices with (a := fun _ => 0) by apply W. reflexivity.
Qed.

Lemma ftotal_any f a : sum_over card (vorder f) (feval f) a = ftotal f.
Proof. apply (sum_over_deps card (vorder f)); [apply feval_deps|tauto]. Qed.

Lemma normalize_spec f : wf_factor f ->
  wf_factor (normalize f) /\ vorder (normalize f) = vorder f /\
  fvals (normalize f) = fvals f /\
  forall a, inrange card (vorder f) a ->
    feval (normalize f) a = if qltb 0%Qc (ftotal f) then (feval f a / ftotal f)%Qc else feval f a.
Proof.
  intros W. unfold normalize. rewrite (asum_total f W).
  destruct (qltb 0%Qc (ftotal f)).
  - split; [apply wf_amap, W|]. split; [reflexivity|]. split; [reflexivity|].
    intros a R. apply feval_amap; assumption.
  - split; [exact W|]. split; [reflexivity|]. split; reflexivity.
Qed.

Lemma ftotal_normalize f : wf_factor f -> (0 < ftotal f)%Qc -> ftotal (normalize f) = 1%Qc.
Proof.
  intros W P. destruct (normalize_spec f W) as (W' & O & _ & V). unfold ftotal at 1. rewrite O.
  rewrite (sum_over_ext_in card _ _ (fun a => / ftotal f * feval f a)%Qc).
  - rewrite sum_over_const_l. fold (ftotal f). rewrite Qcmult_comm. apply Qcmult_inv_r.
    apply Qc_pos_neq0, P.
  - intros b Rb _. rewrite V by exact Rb. apply qltb_true in P. rewrite P.
    unfold Qcdiv; apply Qcmult_comm.
Qed.

End WithDom.
