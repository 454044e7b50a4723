(** Forward samples in rounded arithmetic; chains do not see the order of the entries of a
    state. *)
From Coq Require Import Field.
From Verif Require Import Base NDArray Factor Exact Spec OrderSpec BaseFacts FactorProofs SpecFacts Sampling MCSpec MCFacts MCProof MCTop MCChain MCForward
  LawSpec LawCount LawKernel LawOne LawChain LawMean LawErgodic LawForward LawMCMC LawTop
  Rounded RoundedSpec RoundedProof RoundedTables RoundedTop RoundedDouble RoundedSample RoundedSampleSpec RoundedSampleDraw RoundedSampleOne RoundedSampleChain RoundedSampleStay.

Section Programs.
Context {RD : Rounding}.
Variable b : bn.
Hypothesis NNb : nonneg_bn b.
Variable ev : dict string.
Variable N : nat.
Hypothesis N0 : 0 < N.

Definition fcost (v : string) : nat := if dmem v ev then 0 else 1.
Definition fone (v : string) : prog := fun x l => match sample_one (gen l) b ev (x, 0) v with Ok (s, _) => Ok s | Err e => Err e end.
Definition rfone (v : string) : prog := fun x l => match rsample_one (gen l) b ev (x, 0) v with Ok (s, _) => Ok s | Err e => Err e end.
Fixpoint fsweep (f : string -> prog) (vs : list string) : prog := match vs with [] => pause | v :: vs' => follow (fcost v) (f v) (fsweep f vs') end.

Lemma fone_computes v : computes (fun g a => sample_one g b ev a v) (fone v) (fcost v).
Proof.
  intros g st k. unfold fone, fcost, sample_one. cbn [fst snd]. destruct (dmem v ev); cbn [rbind]; [now rewrite Nat.add_0_r|].
  destruct (get_node b v); cbn [rbind]; [|reflexivity]. destruct (get_children b v); cbn [rbind]; [|reflexivity].
  unfold sample_value. destruct (mapM _ _) as [ws|]; cbn [rbind]; [|reflexivity]. change (unif (gen (dl g k 1)) 0) with (unif g k).
  destruct (roulette _ _ _ _); cbn [rbind]; [|reflexivity]. now rewrite Nat.add_1_r.
Qed.

Lemma rfone_computes v : computes (fun g a => rsample_one g b ev a v) (rfone v) (fcost v).
Proof.
  intros g st k. unfold rfone, fcost, rsample_one. cbn [fst snd]. destruct (dmem v ev); cbn [rbind]; [now rewrite Nat.add_0_r|].
  destruct (get_node b v); cbn [rbind]; [|reflexivity]. destruct (get_children b v); cbn [rbind]; [|reflexivity].
  unfold rdraw_value, rsample_value. destruct (mapM _ _) as [ws|]; cbn [rbind]; [|reflexivity]. change (unif (gen (dl g k 1)) 0) with (unif g k).
  destruct (rdraw _ _ _); cbn [rbind]; [|reflexivity]. now rewrite Nat.add_1_r.
Qed.

Lemma fsweep_computes (f : rng -> state * nat -> string -> res (state * nat)) F vs : (forall v, computes (fun g a => f g a v) (F v) (fcost v)) ->
  computes (fun g a => foldM (f g) vs a) (fsweep F vs) (length (unset ev vs)).
Proof.
  intros H. induction vs as [|v vs IH].
  - intros g st k. cbn. now rewrite Nat.add_0_r.
  - replace (length (unset ev (v :: vs))) with (fcost v + length (unset ev vs)) by (unfold fcost, unset; cbn [filter]; destruct (dmem v ev); reflexivity).
    intros g st k. cbn [fsweep]. etransitivity; [|exact (computes_seq _ _ _ _ _ _ (H v) IH g st k)]. reflexivity.
Qed.

Definition bad_fone (v : string) : fails := fun x l =>
  if dmem v ev then false else match get_node b v, get_children b v with Ok n, Ok cs => bad_draw b n cs true x (fst (nth 0 l (half, 0))) | _, _ => false end.

Lemma fone_coupled v : coupled N (bad_fone v) (fone v) (rfone v) (fcost v) (if dmem v ev then 0 else slip b N)%Qc.
Proof.
  intros x. assert (Z : forall c, (qsum (map (fun l : list (Qc * nat) => ind false) (streams N c)) <= powc (qnat N * qnat N) c * slip b N)%Qc).
  { intros c. rewrite qsum_zero; [|reflexivity]. rewrite <- streams_count. apply Qcmult_nonneg; [apply qnat_nonneg|now apply slip_nonneg]. }
  unfold bad_fone, fone, rfone, fcost, sample_one, rsample_one. cbn [fst snd]. destruct (dmem v ev).
  { split; [reflexivity|]. rewrite qsum_zero by reflexivity. rewrite Qcmult_0_r. apply Qcle_refl. }
  destruct (get_node b v) as [n|] eqn:GN; cbn [rbind]; [|split; [auto|apply Z]].
  destruct (get_children b v) as [cs|] eqn:GC; cbn [rbind]; [|split; [auto|apply Z]].
  pose proof (LawForward.get_node_In b v n GN) as Hn. pose proof (get_children_In b v cs GC) as I. pose proof (get_children_few b v cs GC) as L. split.
  - intros l Hl B. rewrite (draw_same b); auto. apply (gen_ok N 1 l Hl).
  - rewrite (streams_1 N (fun l => ind (bad_draw b n cs true x (fst (nth 0 l (half, 0)))))). cbn [nth fst powc].
    eapply Qcle_trans; [apply sum_le; intros u _; rewrite qsum_const, seq_length; apply Qcle_refl|]. rewrite qsum_mult_l.
    match goal with |- (_ <= ?r)%Qc => replace r with (qnat N * (qnat N * slip b N))%Qc by ring end. apply Qcmult_le_l; [apply qnat_nonneg|]. now apply draw_count.
Qed.

Fixpoint bad_fsweep (vs : list string) : fails := match vs with [] => fun _ _ => false | v :: vs' => bad_follow (fcost v) (bad_fone v) (bad_fsweep vs') (fone v) end.

Lemma fsweep_coupled vs : coupled N (bad_fsweep vs) (fsweep fone vs) (fsweep rfone vs) (length (unset ev vs)) (qnat (length (unset ev vs)) * slip b N)%Qc.
Proof.
  induction vs as [|v vs IH]; cbn [bad_fsweep fsweep]; [exact (coupled_pause N)|].
  assert (E : length (unset ev (v :: vs)) = fcost v + length (unset ev vs)) by (unfold fcost, unset; cbn [filter]; destruct (dmem v ev); reflexivity). rewrite E.
  replace (qnat (fcost v + length (unset ev vs)) * slip b N)%Qc with ((if dmem v ev then 0 else slip b N) + qnat (length (unset ev vs)) * slip b N)%Qc.
  - apply coupled_follow; [apply fone_coupled|exact IH|]. apply Qcmult_nonneg; [apply qnat_nonneg|now apply slip_nonneg].
  - rewrite qnat_add. unfold fcost. destruct (dmem v ev); [change (qnat 0) with 0%Qc|change (qnat 1) with 1%Qc]; ring.
Qed.

Theorem samples_agree order m : length (unset ev order) <= m ->
  (chance N m (fun g => differ_samples (rget_sample g 0 b order ev) (get_sample g 0 b order ev)) <= qnat (length (unset ev order)) * slip b N)%Qc.
Proof.
  intros L. set (x0 := fold_left (fun d p => dset (fst p) (snd p) d) ev []).
  apply (chance_bound N N0 m (length (unset ev order)) _ (bad_fsweep order x0) _ L); [|exact (proj2 (fsweep_coupled order x0))].
  intros l Hl B. assert (E : rget_sample (gen l) 0 b order ev = get_sample (gen l) 0 b order ev).
  { unfold rget_sample, get_sample. fold x0. pose proof (proj1 (Forall_forall _ _) (streams_length N m) l Hl) as LL. cbv beta in LL.
    pose proof (fsweep_computes _ _ order rfone_computes (gen l) x0 0) as R. pose proof (fsweep_computes _ _ order fone_computes (gen l) x0 0) as R'. cbv beta in R, R'.
    rewrite dl_gen in R, R' by lia. rewrite (proj1 (fsweep_coupled order x0) _ (streams_firstn N m l _ Hl L) B) in R.
    etransitivity; [exact R|]. symmetry. exact R'. }
  rewrite E. unfold differ_samples. now destruct (res_dec _ _ _).
Qed.
End Programs.

Section Forward.
Context {RD : Rounding}.
Variable b : bn.
Hypothesis SN : sampled_net b.
Let WB := sn_bn b SN.
Let WG := sn_graph b SN.
Variable ev : state.
Variable order : list string.
Hypothesis TO : topological b order.

Let in_order v : In v order <-> In v (bnames b).
Proof. split; intros H; [eapply Permutation_in; [symmetry; apply TO|exact H]|eapply Permutation_in; [apply TO|exact H]]. Qed.

Lemma sum_some ws : (0 < qsum ws)%Qc -> exists w, In w ws /\ (0 < w)%Qc.
Proof.
  induction ws as [|w ws IH]; cbn [qsum]; intros H; [now apply Qc_lt_irrefl in H|]. destruct (Qclt_le_dec 0 w) as [P|P]; [exists w; split; [now left|exact P]|].
  destruct IH as (w' & I & P'); [|exists w'; split; [now right|exact P']]. eapply Qclt_le_trans; [exact H|]. rewrite <- (Qcplus_0_l (qsum ws)) at 2. apply Qcplus_le_compat; [exact P|apply Qcle_refl].
Qed.

(** The values drawn so far have positive probability given their parents. *)
Definition drawn_well (vs : list string) (st : state) : Prop := forall n, In n (bnodes b) -> In (dn_name n) vs -> ~ In (dn_name n) (dkeys ev) -> (0 < entry n st)%Qc.

Lemma rsample_steps g : rng_ok g -> legal_ev b ev -> forall post pre st k, order = pre ++ post -> settled b ev pre st ->
  exists st', foldM (rsample_one g b ev) post (st, k) = Ok (st', k + length (unset ev post)) /\ settled b ev order st' /\
    (lively g -> stochastic_bn b -> drawn_well pre st -> drawn_well order st').
Proof.
  intros RG LE. induction post as [|v post IH]; intros pre st k E S.
  { exists st. rewrite app_nil_r in E. subst. cbn. rewrite Nat.add_0_r. auto. }
  assert (Hv : In v (bnames b)) by (apply in_order; rewrite E; apply in_or_app; right; now left).
  assert (E' : order = (pre ++ [v]) ++ post) by now rewrite <- app_assoc.
  assert (NO : NoDup order) by (eapply Permutation_NoDup; [apply TO|exact (wb_names _ WB)]).
  assert (NV : ~ In v pre) by (rewrite E in NO; apply NoDup_remove_2 in NO; intros Z; apply NO, in_or_app; now left).
  cbn [foldM]. unfold rsample_one at 1. cbn [fst snd]. unfold unset. cbn [filter]. fold (unset ev post).
  destruct (dmem v ev) eqn:M; cbn [negb].
  - cbn [rbind]. destruct (IH (pre ++ [v]) st k E') as (st' & F1 & F2 & F3).
    + split; [apply S|]. intros u Hu. apply in_app_or in Hu as [Hu|[<-|[]]]; [now apply S|]. apply dmem_In, dget_key in M as (y & Y). exists y. split; [now apply S|]. now apply LE.
    + exists st'. split; [exact F1|]. split; [exact F2|]. intros LV ST W. apply F3; auto. intros n Hn In1 NE. apply in_app_or in In1 as [In1|[Z|[]]]; [now apply W|]. exfalso. apply NE. rewrite <- Z. now apply dmem_In.
  - destruct (node_of b SN v Hv) as (n & Hn & Nm & GN & V & NE & ND). rewrite GN. cbn [rbind].
    destruct (children_ok b WB WG (sn_edges b SN) (sn_once b SN) v Hv) as (cs & GC & _). rewrite GC. cbn [rbind].
    assert (PP : incl (map fst (dn_parents n)) pre) by (eapply TO; eauto).
    assert (FW := forward_weights b SN n st st Hn (fun p Hp => proj2 S p (PP p Hp)) (fun p _ => eq_refl) cs).
    assert (FP : forall y, In y (dn_values n) -> get_markov_prob n y cs (dset (dn_name n) y st) true = Ok (entry n (dset (dn_name n) y st))).
    { intros y Y. apply mapM_ok in FW. unfold conditional in FW. clear - FW Y. induction (dn_values n) as [|z l IHl]; [destruct Y|]. cbn [map] in FW. inversion FW; subst. destruct Y as [->|Y]; auto. }
    assert (NG : forall m, m = n \/ In m cs -> Forall (fun q => 0 <= q)%Qc (data (dn_cpd m))).
    { intros m [->|Hm]; [now apply (sn_nonneg b SN)|]. apply (sn_nonneg b SN). exact (get_children_In b v cs GC m Hm). }
    destruct (rsample_hits g k n st cs true RG NE NG) as (y & p & S1 & Y & S3 & S4); [intros y Y; eexists; now apply FP|].
    unfold rdraw_value. rewrite S1. cbn [rbind].
    destruct (IH (pre ++ [v]) (dset v y st) (Datatypes.S k) E') as (st' & F1 & F2 & F3).
    + split; [apply keeps_dset; [apply S|now apply dmem_nIn]|].
      intros u Hu. rewrite dget_dset. destruct (String.eqb_spec u v) as [->|X]; [exists y; split; [reflexivity|now rewrite V]|].
      apply in_app_or in Hu as [Hu|[Hu|[]]]; [now apply S|congruence].
    + exists st'. rewrite F1. split; [f_equal; f_equal; cbn [length]; lia|]. split; [exact F2|]. intros LV ST W. apply F3; auto.
      intros m Hm Im NM. apply in_app_or in Im as [Im|[Im|[]]].
      * replace (entry m (dset v y st)) with (entry m st); [now apply W|]. apply entry_ext.
        assert (PM : incl (map fst (dn_parents m)) pre).
        { apply in_split in Im as (l1 & l2 & Im). intros z Z. rewrite Im. apply in_or_app. left. revert z Z. eapply TO; [|exact Hm|reflexivity]. rewrite E, Im, <- app_assoc. reflexivity. }
        intros u [<-|U]; symmetry; apply look_dset_neq; intros EQ; apply NV; rewrite <- EQ; [exact Im|now apply PM].
      * assert (m = n). { apply (MCProof.node_unique b WB); auto. congruence. } subst m. rewrite (FP y Y) in S3. inversion S3; subst p. rewrite <- Nm. apply S4; [apply LV|].
        destruct (sum_some (conditional n st)) as (w & Iw & Pw); [rewrite (conditional_sum b ST n st Hn); reflexivity|].
        unfold conditional in Iw. apply in_map_iff in Iw as (z & <- & Z). exists z, (entry n (dset (dn_name n) z st)). split; [exact Z|]. split; [now apply FP|exact Pw].
Qed.

Lemma rsample_total g : rng_ok g -> NoDup (dkeys ev) -> legal_ev b ev ->
  exists st, rget_sample g 0 b order ev = Ok (st, length (unset ev order)) /\ complete b st /\ keeps ev st /\
    (lively g -> stochastic_bn b -> forall n, In n (bnodes b) -> ~ In (dn_name n) (dkeys ev) -> (0 < entry n st)%Qc).
Proof.
  intros RG ND LE. destruct (rsample_steps g RG LE order [] _ 0 eq_refl (init_settled b ev ND)) as (st & E & [K S] & W). exists st.
  split; [exact E|]. split; [intros v V; apply S; now apply in_order|]. split; [exact K|]. intros LV ST n Hn NE. apply (W LV ST); auto; [intros m _ []|]. apply in_order. exact (in_map dn_name _ _ Hn).
Qed.

(** ** Entries in another order *)
Lemma rmarkov_same n a cs x y f : In n (bnodes b) -> incl cs (bnodes b) -> same b x y -> rmarkov n a cs x f = rmarkov n a cs y f.
Proof.
  intros Hn I S. unfold rmarkov. rewrite (sp_same b SN n a x y Hn S). destruct (sp n a y) as [p|]; cbn [rbind]; [|reflexivity].
  destruct f; [reflexivity|]. revert p. induction cs as [|c cs IH]; intros p; [reflexivity|]. cbn [foldM].
  assert (Hc : In c (bnodes b)) by (apply I; now left). unfold dget_err. rewrite (S (dn_name c)) by exact (in_map dn_name _ _ Hc).
  destruct (dget (dn_name c) y); cbn [rbind]; [|reflexivity]. rewrite (sp_same b SN c _ x y Hc S). destruct (sp c _ y); cbn [rbind]; [|reflexivity].
  apply IH. intros z Z. apply I. now right.
Qed.

Lemma rone_same t g v x y k : In v (bnames b) -> same b x y -> alike b (rchange_one t g b (x, k) v) (rchange_one t g b (y, k) v).
Proof.
  intros Hv S. destruct t; cbn [rchange_one].
  - unfold rgibbs_one. cbn [fst snd]. destruct (get_node b v) as [n|] eqn:GN; cbn [rbind]; [|reflexivity].
    destruct (get_children b v) as [cs|] eqn:GC; cbn [rbind]; [|reflexivity]. apply LawForward.get_node_In in GN. apply get_children_In in GC.
    unfold rdraw_value, rsample_value.
    replace (mapM (fun a => rmarkov n a cs (dset (dn_name n) a x) false) (dn_values n)) with
      (mapM (fun a => rmarkov n a cs (dset (dn_name n) a y) false) (dn_values n)).
    + destruct (mapM _ _); cbn [rbind]; [|reflexivity]. destruct (rdraw _ _ _); cbn [rbind alike]; [|reflexivity]. split; [now apply same_dset|reflexivity].
    + apply mapM_ext. intros a _. symmetry. apply rmarkov_same; auto. now apply same_dset.
  - unfold rmh_one. cbn [fst snd]. unfold dget_err. rewrite (S v Hv). destruct (dget v y); cbn [rbind]; [|reflexivity].
    destruct (get_node b v) as [n|] eqn:GN; cbn [rbind]; [|reflexivity]. apply LawForward.get_node_In in GN.
    destruct (choice g k (dn_values n)) as [[a k1]|]; cbn [rbind]; [|reflexivity].
    destruct (get_children b v) as [cs|] eqn:GC; cbn [rbind]; [|reflexivity]. apply get_children_In in GC.
    rewrite (rmarkov_same n a cs (dset v a x) (dset v a y) false GN GC (same_dset b v a x y S)). destruct (rmarkov n a cs (dset v a y) false); cbn [rbind]; [|reflexivity].
    rewrite (rmarkov_same n _ cs x y false GN GC S). destruct (rmarkov n _ cs y false); cbn [rbind alike]; [|reflexivity].
    split; [|reflexivity]. destruct (qleb _ _); [now apply same_dset|exact S].
Qed.

Lemma rfold_same t g vs : incl vs (bnames b) -> forall x y k, same b x y -> alike b (foldM (rchange_one t g b) vs (x, k)) (foldM (rchange_one t g b) vs (y, k)).
Proof.
  induction vs as [|v vs IH]; intros I x y k S; [now split|]. cbn [foldM]. apply (alike_bind b); [apply rone_same; auto; apply I; now left|].
  intros. apply IH; auto. intros z Z. apply I. now right.
Qed.

Lemma rstep_same t full g vs x y k : incl vs (bnames b) -> same b x y -> alike b (rstep t full g b vs (x, k)) (rstep t full g b vs (y, k)).
Proof.
  intros I S. unfold rstep. destruct full; [now apply rfold_same|]. cbn [fst snd]. destruct (choice g k vs) as [[v k1]|] eqn:C; cbn [rbind]; [|reflexivity].
  apply rone_same; auto. apply I. destruct (choice_ok g k vs) as (z & Z & E); [intros ->; discriminate C|]. congruence.
Qed.

Lemma rburn_same t full g vs n : incl vs (bnames b) -> forall x y k, same b x y ->
  alike b (burn (rstep t full g b vs) n (x, k)) (burn (rstep t full g b vs) n (y, k)).
Proof.
  intros I. induction n as [|n IH]; intros x y k S; [now split|]. cbn [burn]. apply (alike_bind b); [now apply rstep_same|]. auto.
Qed.
End Forward.
