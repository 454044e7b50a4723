From Coq Require Import Field.
From Verif Require Import Base NDArray Factor Exact Spec OrderSpec TreeSpec BaseFacts NDArrayFacts FactorFacts SpecFacts FactorSpec FactorProofs Sampling MCSpec MCFacts MCProof MCTop MCChain MCForward.
From Verif Require Node Network NetSpec NetFacts NetInv NetTop NetView NetTable.

(** Collecting the value lists. *)
Lemma collect_values b : wf_bn b -> forall vs d, incl vs (bnames b) ->
  (forall v l, dget v d = Some l -> l = values_of b v) -> NoDup (dkeys d) ->
  exists vv, foldM (fun d v => let* n := get_node b v in Ok (dset v (dn_values n) d)) vs d = Ok vv /\
    NoDup (dkeys vv) /\ (forall v, In v (dkeys vv) <-> In v (dkeys d) \/ In v vs) /\ (forall v l, dget v vv = Some l -> l = values_of b v).
Proof.
  intros WB. induction vs as [|v vs IH]; intros d I H N.
  - exists d. split; [reflexivity|]. split; [exact N|]. split; [intros v; cbn; tauto|exact H].
  - cbn [foldM]. assert (Hv : In v (bnames b)) by (apply I; now left). apply in_map_iff in Hv as (n & E & Hn). subst v.
    rewrite (get_node_ok b WB n Hn). cbn [rbind].
    destruct (IH (dset (dn_name n) (dn_values n) d)) as (vv & E & N' & K & H').
    + intros x Hx. apply I. now right.
    + intros u l. rewrite dget_dset. destruct (String.eqb_spec u (dn_name n)) as [->|X]; [|apply H].
      intros Q. injection Q as <-. symmetry. now apply values_of_node.
    + now apply dset_NoDup.
    + exists vv. split; [exact E|]. split; [exact N'|]. split; [|exact H']. intros u. rewrite K, In_dkeys_dset.
      cbn [In]. intuition.
Qed.

Lemma mcmc_frequencies b t burnIn full N g order vs ev : sampled_net b -> rng_ok g -> topological b order ->
  NoDup (dkeys ev) -> legal_ev b ev -> incl vs (bnames b) -> N <> 0 -> full = true \/ free_vars b ev <> [] ->
  exists init k chain f, get_sample g 0 b order ev = Ok (init, k) /\
    generate_chain t burnIn full g b N (init, k) (Some ev) = Ok chain /\ length chain = N /\
    mcmc_marginals t burnIn full N g b order vs ev = Ok f /\
    reports b f vs (fun q => qnat (hits q chain) / qnat N)%Qc /\ qsum (data (pot f)) = 1%Qc.
Proof.
  intros SN RG TO ND LE IV NZ FU. pose proof (sn_bn b SN) as WB.
  destruct (sample_total b SN ev order TO g 0 RG ND LE) as (init & k & GS & C & K).
  destruct (chain_legit b SN g RG t burnIn full N init k ev C K FU) as (chain & GC & L & F).
  destruct (collect_values b WB vs [] IV) as (vv & EV & NV & KV & HV); [discriminate|constructor|].
  assert (VN : forall v l, In (v, l) vv -> In v (bnames b) /\ l = values_of b v).
  { intros v l Hl. pose proof (In_dget v l vv NV Hl) as D. split; [|now apply HV]. apply IV.
    apply dget_Some_key, KV in D. destruct D as [[]|D]; exact D. }
  destruct (samples_named vv chain) as (f & FS & G & VO & FV & SUM & POT).
  - exact NV.
  - intros v l Hl. destruct (VN v l Hl) as [Hv ->]. destruct (node_of b SN v Hv) as (n & _ & _ & _ & -> & _ & Q). exact Q.
  - intros ->. cbn in L. now subst.
  - intros s Hs v l Hl. destruct (VN v l Hl) as [Hv ->]. rewrite Forall_forall in F. now apply (proj1 (F s Hs)).
  - exists init, k, chain, f. split; [exact GS|]. split; [exact GC|]. split; [exact L|]. split.
    { unfold mcmc_marginals. rewrite GS. cbn [rbind]. rewrite EV. cbn [rbind]. rewrite GC. exact FS. }
    split; [|exact SUM].
    assert (VS : forall v, In v (vorder f) <-> In v vs).
    { intros v. rewrite VO, KV. cbn. tauto. }
    assert (DV : forall v, In v (vorder f) -> dget v (fvals f) = Some (values_of b v)).
    { intros v Hv. rewrite VO in Hv. rewrite FV. destruct (dget_key v vv Hv) as (l & D). rewrite D. f_equal. now apply HV. }
    split; [apply G|]. split; [exact VS|]. split; [exact DV|]. split; [apply G|]. split.
    { rewrite (gf_shape _ G). apply map_ext_in. intros v Hv. unfold fvalues. now rewrite (DV v Hv). }
    split; [apply G|]. intros q (Q1 & Q2 & Q3). rewrite POT.
    + rewrite L. reflexivity.
    + exact Q1.
    + intros v. rewrite Q2, <- VS, VO. tauto.
    + intros v Hv. assert (Hq : In v (dkeys q)) by (apply Q2, VS, Hv). destruct (dget_key v q Hq) as (x & D). exists x.
      split; [exact D|]. unfold fvalues. rewrite (DV v Hv). apply (Q3 v x). now apply dget_In.
Qed.

(** The heap (Node.v) and the snapshot give the same probabilities. *)
Lemma single_probability_shown w v i n x st : NetSpec.reached w -> NetSpec.holds w v i n ->
  Node.single_probability (Network.whp w) n x st = sp (Network.snapshot_node (Network.whp w) n) x st.
Proof.
  intros R H. pose proof (NetTop.reached_inv w R) as I. unfold Node.single_probability, sp.
  rewrite (NetInv.inv_discrete w I v i n H).
  rewrite (NetView.shown_parents w v i n I H). cbn [dn_values dn_cpd Network.snapshot_node].
  unfold Node.own_index.
  assert (E : mapM (Node.parent_index (Network.whp w) n st) (Node.nporder n) =
    mapM (fun p => let* y := dget_err KeyError (fst p) st in py_index y (snd p)) (map (fun q => (q, NetView.vals_of w q)) (Node.nporder n))).
  { assert (A : forall q, In q (Node.nporder n) -> Node.parent_values (Network.whp w) n q = Ok (NetView.vals_of w q)).
    { intros q Hq. eapply NetView.parent_values_vals; eauto. }
    revert A. generalize (Node.nporder n) as l. induction l as [|q l IH]; intros A; [reflexivity|]. cbn [map mapM fst snd].
    rewrite <- IH by (intros; apply A; now right).
    assert (B : Node.parent_index (Network.whp w) n st q = let* y := dget_err KeyError q st in py_index y (NetView.vals_of w q)).
    { pose proof (A q (or_introl eq_refl)) as P. unfold Node.parent_values in P. unfold Node.parent_index.
      destruct (dget_err KeyError q (Node.nparents n)) as [o|]; cbn [rbind] in P |- *; [|discriminate P].
      destruct (Node.hget (Network.whp w) o) as [m|]; cbn [rbind] in P |- *; [|discriminate P].
      rewrite P. reflexivity. }
    rewrite B. reflexivity. }
  rewrite E. destruct (Node.nvalues n); reflexivity.
Qed.

Lemma view_sampled w : NetSpec.reached w -> NetView.tidy w -> nonneg_bn (Network.view w) -> sampled_net (Network.view w).
Proof.
  intros R T NN. destruct (NetView.view_wf w R T) as (A & B & C). constructor; auto.
  exact (NetSpec.co_edges w (NetInv.iv_c w (NetTop.reached_inv w R))).
Qed.
