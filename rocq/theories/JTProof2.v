(** Evidence, call histories and repeated message passing in junction trees. *)
From Coq Require Import Field.
From Verif Require Import Base BaseFacts NDArray NDArrayFacts SumCalc Factor FactorFacts Exact Spec SpecFacts
  VEProof VEProof2 Order JoinTree HuginPure Hugin JTProof.

Fixpoint redges (r : rtree) : list (string * string) :=
  match r with RT k cs => map (fun c => (k, rkey c)) cs ++ flat_map redges cs end.

Lemma redges_in k cs c : In c cs -> In (k, rkey c) (redges (RT k cs)).
Proof. intros H. cbn. apply in_or_app; left. apply (in_map (fun c => (k, rkey c))), H. Qed.
Lemma redges_sub k cs c e : In c cs -> In e (redges c) -> In e (redges (RT k cs)).
Proof. intros H H'. cbn. apply in_or_app; right. apply in_flat_map; eauto. Qed.

Lemma redges_keys r k c : In (k, c) (redges r) -> In k (rkeys r) /\ In c (rkeys r).
Proof.
  induction r as [k0 cs IH] using rtree_ind'. cbn. intros H. apply in_app_or in H as [H|H].
  - apply in_map_iff in H as (x & E & Hx). inversion E; subst. split; [left; reflexivity|right].
    apply in_flat_map. exists x. split; [exact Hx|]. destruct x; left; reflexivity.
  - apply in_flat_map in H as (x & Hx & H). rewrite Forall_forall in IH. destruct (IH x Hx H) as [A B].
    split; right; apply in_flat_map; eauto.
Qed.

Lemma rjt_edge cv sv r k c : rjt cv sv r -> In (k, c) (redges r) -> incl (sv c) (cv k) /\ incl (sv c) (cv c).
Proof.
  induction r as [k0 cs IH] using rtree_ind'. intros J H. apply rjt_inv in J as (_ & _ & Js & Is & _).
  rewrite Forall_forall in IH, Js, Is. cbn in H. apply in_app_or in H as [H|H].
  - apply in_map_iff in H as (x & E & Hx). inversion E; subst. split; [apply Is, Hx|].
    specialize (Js x Hx). destruct x. apply rjt_inv in Js. apply Js.
  - apply in_flat_map in H as (x & Hx & H). eauto.
Qed.

Lemma rjt_nodup cv sv r k : rjt cv sv r -> In k (rkeys r) -> NoDup (cv k).
Proof.
  induction r as [k0 cs IH] using rtree_ind'. intros J [<-|H]; apply rjt_inv in J as (N & _ & Js & _); [exact N|].
  apply in_flat_map in H as (c & Hc & H). rewrite Forall_forall in IH, Js. eauto.
Qed.

Lemma seps_ne_edge sv r k c : seps_ne sv r -> In (k, c) (redges r) -> sv c <> [].
Proof.
  induction r as [k0 cs IH] using rtree_ind'. intros J H. inversion J as [? ? A B]; subst.
  rewrite Forall_forall in IH, A, B. cbn in H. apply in_app_or in H as [H|H].
  - apply in_map_iff in H as (x & E & Hx). inversion E; subst. apply A, Hx.
  - apply in_flat_map in H as (x & Hx & H). eauto.
Qed.

Lemma dset_same {A} k (c : A) d : dget k d = Some c -> dset k c d = d.
Proof.
  induction d as [|[k' c'] d IH]; cbn; [discriminate|]. destruct (String.eqb_spec k k') as [->|].
  - intros E; inversion E; reflexivity. - intros E. rewrite IH by exact E. reflexivity.
Qed.

Lemma fmul_fvals {SO : SetOrder} f g h : fmul f g = Ok h -> vorder f <> [] -> incl (vorder g) (vorder f) ->
  fvals h = fvals f.
Proof.
  unfold fmul, fcombine. intros E N I. destruct (vorder f) as [|v l] eqn:Ef; [congruence|].
  destruct (vorder g) as [|w m] eqn:Eg.
  - destruct (zipb _ _ _); [|discriminate]. inversion E; reflexivity.
  - rewrite <- Ef, <- Eg in *. assert (X : sdiff (vorder g) (vorder f) = []).
    { destruct (sdiff (vorder g) (vorder f)) as [|x s] eqn:Es; [reflexivity|].
      assert (Hx : In x (sdiff (vorder g) (vorder f))) by (rewrite Es; left; reflexivity).
      apply sdiff_spec in Hx as [H1 H2]. exfalso; apply H2, I, H1. }
    rewrite X in E. unfold add_vals in E. cbn [foldM rbind] in E.
    destruct (mapM _ _); [|discriminate]. cbn [rbind] in E. destruct (transpose _ _); [|discriminate]. cbn [rbind] in E.
    destruct (zipb _ _ _); [|discriminate]. inversion E; reflexivity.
Qed.

Section Tree.
Context {SO : SetOrder}.
Variable b : bn.
Hypothesis WB : wf_bn b.
Notation dom := (values_of b).
Notation card := (FactorFacts.card dom).
Notation U := (bnames b).
Notation rep := (rep dom U).

Lemma loaded_ext t W W' : loaded b t W -> (forall a, inrange card U a -> W a = W' a) -> loaded b t W'.
Proof.
  intros (TS & sc & psi & [L1 L2 L3 L4 L5] & H) E. split; [exact TS|]. exists sc, psi. split; [|exact H].
  split; auto. intros a R. rewrite <- E by exact R. apply L5, R.
Qed.

Lemma each_evidence ev l : ev_ok b ev -> incl l ev -> incl (dkeys l) U -> forall t r sv W,
  jt_ok b t r sv -> loaded b t W ->
  exists t', each (add_tree_evidence b []) l t = (t', Ok tt) /\ skel t' = skel t /\ tvalid t' = tvalid t /\
    loaded b t' (fun a => W a * ev_prod b ev l a)%Qc.
Proof.
  intros EV. induction l as [|[v e] l IH]; intros I K t r sv W J L.
  - exists t. split; [reflexivity|]. split; [reflexivity|]. split; [reflexivity|].
    eapply loaded_ext; [exact L|]. intros a _. unfold ev_prod; cbn; ring.
  - assert (Hv : In v U) by (apply K; left; reflexivity).
    assert (Hv' := Hv). apply in_bnames in Hv' as (n & Hn & En). subst v.
    assert (Ee : dget (dn_name n) ev = Some e).
    { apply In_dget; [apply EV|]. apply I; left; reflexivity. }
    destruct (as_evidence_spec b WB ev EV n e Hn Ee) as (ef & E1 & We & Oe & Ve).
    destruct (loaded_evidence b t r sv W (dn_name n) ef J L Hv We Oe) as (l' & E2 & S2 & L2).
    { intros a R. rewrite Ve by (intros x [<-|[]]; apply R, Hv). unfold ievw. rewrite Ee. destruct e as [x|q].
      - destruct (Nat.eqb _ _); discriminate.
      - apply nth_Forall_nonneg. eapply ev_soft; eassumption. }
    set (t1 := mkT l' (tadj t) (tedges t) (tvalid t)) in *.
    destruct (IH (fun x Hx => I x (or_intror Hx)) (fun x Hx => K x (or_intror Hx)) t1 r sv (fun a => W a * feval ef a)%Qc)
      as (t2 & E3 & S3 & V3 & L3).
    { eapply jt_ok_same; [reflexivity|symmetry; exact S2|exact J]. }
    { exact L2. }
    exists t2. cbn [each]. unfold add_tree_evidence at 1. cbn [fst snd dget]. rewrite (get_node_ok b WB n Hn). cbn [rbind].
    rewrite E1. cbn [rbind]. rewrite E2. fold t1. split; [exact E3|]. split; [congruence|]. split; [exact V3|].
    eapply loaded_ext; [exact L3|]. intros a R. unfold ev_prod; cbn [map qprod fst].
    rewrite (get_node_ok b WB n Hn). rewrite Ve; [ring|]. intros w [<-|[]]. apply R, Hv.
Qed.

Lemma iweight_split ev a : ev_ok b ev -> incl (dkeys ev) U ->
  (tables b a * ev_prod b ev ev a)%Qc = iweight b ev a.
Proof. intros EV K. rewrite (ev_prod_all b WB ev EV a K). unfold tables, iweight. symmetry. apply qprod_mult. Qed.

Lemma iweight_nil a : tables b a = iweight b [] a.
Proof.
  rewrite <- iweight_split; [unfold ev_prod; cbn; ring| |intros v []]. split; [constructor|intros v e []].
Qed.

(** Successful [set_evidence]. *)
Lemma set_evidence_calibrates ev t r sv : nonneg_bn b -> ev_ok b ev -> incl (dkeys ev) U -> jt_ok b t r sv ->
  exists t', set_evidence b ev false t = (t', Ok tt) /\ skel t' = skel t /\ tvalid t' = true /\
    calibrated b t' r sv (iweight b ev).
Proof.
  intros NN EV K J. destruct (reset_loaded b WB t r sv NN J) as (t1 & E1 & S1 & V1 & L1).
  assert (J1 : jt_ok b t1 r sv) by (eapply jt_ok_same; [reflexivity|symmetry; exact S1|exact J]).
  destruct (each_evidence ev ev EV (incl_refl _) K t1 r sv _ J1 L1) as (t2 & E2 & S2 & V2 & L2).
  assert (J2 : jt_ok b t2 r sv) by (eapply jt_ok_same; [reflexivity|symmetry; exact S2|exact J1]).
  destruct (calculate_calibrates b WB t2 r sv (iweight b ev) J2) as (t3 & E3 & S3 & V3 & C3).
  { eapply loaded_ext; [exact L2|]. intros a _. apply iweight_split; assumption. }
  exists t3. unfold set_evidence. rewrite E1. cbn iota beta. rewrite E2, E3.
  split; [reflexivity|]. split; [congruence|]. auto.
Qed.

(** Queries report the posterior. *)
Lemma query_posterior ev t r sv Q : nonneg_bn b -> ev_ok b ev -> NoDup Q -> jt_ok b t r sv ->
  tvalid t = true -> calibrated b t r sv (iweight b ev) -> in_clique t Q ->
  exists f, tmarginals t Q = (t, Ok f) /\ reports b f Q (posterior b ev).
Proof.
  intros NN EV ND J Vt C I. destruct (query_ok b WB t r sv _ Q J C Vt I (iweight_ext b WB ev)) as (f & E & Wf & O & IU & Vf).
  exists (normalize f). split; [exact E|]. apply normalize_posterior; auto.
  intros a R. assert (DQ : deps Q (sum_over card (others b Q) (iweight b ev))).
  { eapply deps_incl; [|apply deps_sum_over, (iweight_deps b WB)]. intros v Hv. apply minus_In in Hv as [H1 H2].
    destruct (In_dec_s v Q) as [Y|Y]; [exact Y|]. exfalso. apply H2, others_In. auto. }
  set (a' := fun v => if mem v Q then a v else 0).
  assert (Ea : forall v, In v Q -> a' v = a v) by (intros v Hv; unfold a'; apply mem_In in Hv; rewrite Hv; reflexivity).
  rewrite <- (DQ a' a Ea).
  rewrite (feval_deps f a a'); [|intros v Hv; symmetry; apply Ea, O, Hv].
  apply Vf. intros v Hv. unfold a'. destruct (mem v Q) eqn:M; [apply R, mem_In, M|]. apply (zero_range b WB), Hv.
Qed.

(** ** Message passing on a calibrated tree *)
Section Again.
Variables (t0 : jtree) (r : rtree) (sv : string -> list string) (W : asg -> Qc).
Hypothesis J : jt_ok b t0 r sv.
Hypothesis C : calibrated b t0 r sv W.
Hypothesis WX : ext W.
Hypothesis WN : forall a, inrange card U a -> (0 <= W a)%Qc.
Notation cv := (cvo t0).
Notation VV := (V cv sv r).
Let L (X : list string) : asg -> Qc := sum_over card (minus VV X) W.

Lemma VV_U : incl VV U.
Proof. intros v Hv. apply (Permutation_in v (V_names b WB t0 r sv J) Hv). Qed.

Lemma L_ext X : ext (L X). Proof. apply sum_over_ext_asg, WX. Qed.

Lemma L_nonneg X a : inrange card U a -> (0 <= L X a)%Qc.
Proof.
  intros R. apply sum_over_nonneg. intros a' R' E'. apply WN.
  intros v Hv. destruct (In_dec_s v (minus VV X)) as [Y|Y]; [apply R', Y|]. rewrite E' by exact Y. apply R, Hv.
Qed.

Lemma L_marg X Y a : NoDup X -> incl Y X -> incl X VV -> sum_over card (minus X Y) (L X) a = L Y a.
Proof.
  intros NX IY IX. unfold L. rewrite <- sum_over_app. apply sum_over_perm; [exact WX|].
  assert (NV : NoDup VV) by (apply (V_NoDup card), J).
  apply NoDup_Permutation.
  - apply NoDup_app_disj; [apply minus_NoDup, NX|apply minus_NoDup, NV|].
    intros v H1 H2. apply minus_In in H1, H2. tauto.
  - apply minus_NoDup, NV.
  - intros v. rewrite in_app_iff, !minus_In. split.
    + intros [[H1 H2]|[H1 H2]]; auto.
    + intros [H1 H2]. destruct (In_dec_s v X); auto.
Qed.

Lemma L_zero X Y a : NoDup X -> incl Y X -> incl X VV -> inrange card U a -> L Y a = 0%Qc -> L X a = 0%Qc.
Proof.
  intros NX IY IX R Z. rewrite <- (L_marg X Y a NX IY IX) in Z.
  refine (sum_over_zero_terms card (minus X Y) (L X) (L_ext X) _ a _ Z a _ _).
  - apply minus_NoDup, NX.
  - intros a' R' E'. apply L_nonneg. intros v Hv. destruct (In_dec_s v (minus X Y)) as [H|H]; [apply R', H|].
    rewrite E' by exact H. apply R, Hv.
  - intros v Hv. apply R, VV_U, IX. apply minus_In in Hv. tauto.
  - reflexivity.
Qed.

Definition edge_rep (t : jtree) (k c : string) : Prop :=
  exists g, eget c k (tedges t) = Some (mkS (sv c) g) /\ rep g (sv c) (L (sv c)).

Definition Inv (t : jtree) : Prop :=
  tnodes t = tnodes t0 /\ tadj t = tadj t0 /\ forall k c, In (k, c) (redges r) -> edge_rep t k c.

Lemma calibrated_edge x k c : final dom U cv sv L t0 x -> In (k, c) (redges x) -> edge_rep t0 k c.
Proof.
  induction x as [k0 cs IH] using rtree_ind'. intros F H. inversion F as [? ? f H1 H2 H3 H4]; subst.
  rewrite Forall_forall in IH, H3, H4. cbn in H. apply in_app_or in H as [H|H].
  - apply in_map_iff in H as (x & E & Hx). inversion E; subst. exact (H3 x Hx).
  - apply in_flat_map in H as (x & Hx & H). eauto.
Qed.

Lemma Inv0 : Inv t0.
Proof. split; [reflexivity|]. split; [reflexivity|]. intros k c H. eapply calibrated_edge; [exact C|exact H]. Qed.

(** A message between neighbours [x] and [y] with separator [sv c]. *)
Lemma send_again x y k c t : In (k, c) (redges r) -> (x = k /\ y = c \/ x = c /\ y = k) -> Inv t ->
  exists t', send x y t = (t', Ok tt) /\ Inv t'.
Proof.
  intros He Hxy (IN & IA & IE). destruct (redges_keys _ _ _ He) as [Kk Kc].
  destruct (rjt_edge _ _ _ _ _ (jo_rjt _ _ _ _ J) He) as [Sk Sc].
  assert (Kx : In x (rkeys r)) by (destruct Hxy as [[-> _]|[-> _]]; assumption).
  assert (Ky : In y (rkeys r)) by (destruct Hxy as [[_ ->]|[_ ->]]; assumption).
  assert (Sx : incl (sv c) (cv x)) by (destruct Hxy as [[-> _]|[-> _]]; assumption).
  assert (Sy : incl (sv c) (cv y)) by (destruct Hxy as [[_ ->]|[_ ->]]; assumption).
  destruct (final_node b _ _ _ _ _ x C Kx) as (fx & Ex & Rx).
  destruct (final_node b _ _ _ _ _ y C Ky) as (fy & Ey & Ry).
  change (rep fx (cv x) (L (cv x))) in Rx. change (rep fy (cv y) (L (cv y))) in Ry.
  destruct (IE k c He) as (g & Eg & Rg).
  assert (Eg' : eget x y (tedges t) = Some (mkS (sv c) g)).
  { destruct Hxy as [[-> ->]|[-> ->]]; [rewrite eget_sym|]; exact Eg. }
  assert (Nx := rjt_nodup _ _ _ _ (jo_rjt _ _ _ _ J) Kx). assert (Ny := rjt_nodup _ _ _ _ (jo_rjt _ _ _ _ J) Ky).
  assert (Vx := cv_in_V card _ _ _ x (jo_rjt _ _ _ _ J) Kx). assert (Vy := cv_in_V card _ _ _ y (jo_rjt _ _ _ _ J) Ky).
  assert (NE := seps_ne_edge _ _ _ _ (jo_sne _ _ _ _ J) He).
  rewrite <- IN in Ex, Ey.
  destruct (send_rep dom U (zero_range b WB) x y t (cv x) (sv c) fx (cv x) _ (cv y) fy (cv y) _ g (sv c) _
     Ex Rx Ey Ry Eg' Rg Nx (incl_refl _) (jo_U _ _ _ _ J x)) as (new & f & Es & Rn & Rf & q & Eq & Rq & extra & Xf); auto.
  { apply incl_refl. }
  assert (SN : forall v, In v (filter (fun v => mem v (sv c)) (cv x)) <-> In v (sv c)).
  { intros v. rewrite filter_In, mem_In. split; [tauto|]. auto. }
  destruct Rf as (Wf & Sf & If & Vf). destruct Ry as (Wy & Sy' & Iy & Vy').
  assert (Xn : extra = []).
  { destruct extra as [|v extra]; [reflexivity|]. exfalso. assert (N := wf_nodup _ _ Wf). rewrite Xf in N.
    assert (Hv : In v (vorder f)) by (rewrite Xf; apply in_elt). apply Sf in Hv.
    assert (Hy : In v (vorder fy)).
    { apply Sy'. apply in_app_or in Hv as [Hv|Hv]; [exact Hv|]. apply Sy, SN, Hv. }
    eapply (NoDup_app_no _ _ v N Hy). left; reflexivity. }
  subst extra. rewrite app_nil_r in Xf.
  assert (F : f = fy).
  { assert (P : pot f = pot fy).
    { eapply pot_ext; [exact Wf|exact Wy|exact Xf|]. intros a R.
      set (a' := fun v => if mem v (vorder f) then a v else 0).
      assert (Ra : inrange card U a').
      { intros v Hv. unfold a'. destruct (mem v (vorder f)) eqn:M; [apply R, mem_In, M|]. apply (zero_range b WB), Hv. }
      assert (Ea : forall v, In v (vorder f) -> a v = a' v) by (intros v Hv; unfold a'; apply mem_In in Hv; rewrite Hv; reflexivity).
      rewrite (feval_deps f a a' Ea), (feval_deps fy a a'); [|rewrite <- Xf; exact Ea].
      rewrite Vf, Vy' by exact Ra. rewrite (L_marg (cv x) (sv c) a' Nx Sx Vx).
      destruct (Qc_eq_dec (L (sv c) a') 0%Qc) as [Z|Z].
      - rewrite (L_zero (cv y) (sv c) a' Ny Sy Vy Ra Z). ring.
      - unfold Qcdiv. rewrite Qcmult_inv_r by exact Z. ring. }
    assert (Fv : fvals f = fvals fy).
    { eapply fmul_fvals; [exact Eq| |].
      - destruct (sv c) as [|v s] eqn:Esv; [congruence|]. intros E.
        assert (H : In v (vorder fy)) by (apply Sy', Sy; left; reflexivity). rewrite E in H. destruct H.
      - intros v Hv. apply Sy', Sy, SN, Rq, Hv. }
    destruct f, fy; cbn in *. congruence. }
  subst f. exists (set_sfac x y new (set_cfac y fy t)). split; [exact Es|].
  assert (Tn : set_cfac y fy t = t).
  { unfold set_cfac. rewrite Ey. cbn [cvars]. rewrite dset_same by exact Ey. destruct t; reflexivity. }
  rewrite Tn. split; [rewrite tnodes_set_sfac; exact IN|]. split.
  { rewrite <- IA. apply skel_adj. apply skel_set_sfac. }
  intros k2 c2 H2. unfold edge_rep. rewrite eget_set_sfac. destruct (same_edge c2 k2 (x, y)) eqn:SE.
  - rewrite Eg'. cbn [option_map svars]. destruct (IE k2 c2 H2) as (g2 & Eg2 & Rg2).
    assert (ES : sv c2 = sv c).
    { apply same_edge_spec in SE. assert (E3 : eget c2 k2 (tedges t) = eget x y (tedges t)).
      { destruct SE as [SE|SE]; inversion SE; subst; [reflexivity|apply eget_sym]. }
      rewrite Eg2, Eg' in E3. injection E3 as E4 _. exact E4. }
    rewrite ES. exists new. split; [reflexivity|]. eapply rep_scope; [|exact SN].
    eapply rep_ext; [exact Rn|]. intros a _. cbn beta. apply L_marg; assumption.
  - exact (IE k2 c2 H2).
Qed.

Lemma each_inv {A} (P : jtree -> Prop) (f : A -> jtree -> jtree * res unit) l :
  (forall x t, In x l -> P t -> exists t', f x t = (t', Ok tt) /\ P t') -> forall t, P t ->
  exists t', each f l t = (t', Ok tt) /\ P t'.
Proof.
  intros H. induction l as [|x l IH]; intros t Pt; cbn; [eauto|].
  destruct (H x t (or_introl eq_refl) Pt) as (t1 & E & P1). rewrite E. apply IH; [|exact P1].
  intros y t2 Hy. apply H; right; exact Hy.
Qed.

Lemma pull_again x : forall fuel p t, length (rkeys x) <= fuel -> adjok (tadj t0) p x -> Inv t ->
  incl (redges x) (redges r) -> (forall q, p = Some q -> In (q, rkey x) (redges r)) ->
  exists t', pull fuel (rkey x) p t = (t', Ok tt) /\ Inv t'.
Proof.
  induction x as [k cs IH] using rtree_ind'. intros fuel p t Fu Ad I He Hp. cbn [rkeys length] in Fu.
  destruct fuel as [|fuel]; [lia|]. inversion Ad as [? ? ? Af Ac]; subst. cbn [pull rkey].
  rewrite (proj1 (proj2 I)), Af.
  destruct (each_inv Inv (fun x => pull fuel x (Some k)) (map rkey cs)) with (t := t) as (t1 & E1 & I1); auto.
  { intros y t' Hy I'. apply in_map_iff in Hy as (c & <- & Hc). rewrite Forall_forall in IH, Ac.
    apply IH; auto.
    - assert (X := sum_S_length rkeys c cs Hc). lia.
    - intros e H. apply He. eapply redges_sub; eassumption.
    - intros q Eq. inversion Eq; subst. apply He, redges_in, Hc. }
  rewrite E1. destruct p as [[|ch p]|]; [eauto| |eauto].
  apply (send_again k (String ch p) (String ch p) k); auto.
Qed.

Lemma push_again x : forall fuel p t, length (rkeys x) <= fuel -> adjok (tadj t0) p x -> Inv t ->
  incl (redges x) (redges r) ->
  exists t', push fuel (rkey x) p t = (t', Ok tt) /\ Inv t'.
Proof.
  induction x as [k cs IH] using rtree_ind'. intros fuel p t Fu Ad I He. cbn [rkeys length] in Fu.
  destruct fuel as [|fuel]; [lia|]. inversion Ad as [? ? ? Af Ac]; subst. cbn [push rkey].
  rewrite (proj1 (proj2 I)), Af.
  apply (each_inv Inv); [|exact I]. intros y t' Hy I'. apply in_map_iff in Hy as (c & <- & Hc). rewrite Forall_forall in IH, Ac.
  destruct (send_again k (rkey c) k (rkey c) t') as (t1 & E1 & I1); auto.
  { apply He, redges_in, Hc. }
  rewrite E1. apply IH; auto.
  - assert (X := sum_S_length rkeys c cs Hc). lia.
  - intros e H. apply He. eapply redges_sub; eassumption.
Qed.

Lemma final_again t x : Inv t -> final dom U cv sv L t0 x -> incl (redges x) (redges r) -> final dom U cv sv L t x.
Proof.
  intros I. induction x as [k cs IH] using rtree_ind'. intros F He. inversion F as [? ? f H1 H2 H3 H4]; subst.
  econstructor.
  - rewrite (proj1 I). exact H1.
  - exact H2.
  - apply Forall_forall. intros c Hc. apply I. apply He, redges_in, Hc.
  - rewrite Forall_forall in IH, H4 |- *. intros c Hc. apply IH; auto. intros e H. apply He. eapply redges_sub; eassumption.
Qed.

Theorem calculate_again : exists t', calculate_messages t0 = (t', Ok tt) /\
  tnodes t' = tnodes t0 /\ skel t' = skel t0 /\ tvalid t' = true /\ calibrated b t' r sv W.
Proof.
  destruct (jo_root _ _ _ _ J) as (rest & Er).
  assert (Fu : length (rkeys r) <= S (length (tnodes t0))).
  { assert (P := Permutation_length (rkeys_perm b t0 r sv J)). unfold dkeys in P. rewrite map_length in P. lia. }
  destruct (pull_again r (S (length (tnodes t0))) None t0 Fu (jo_adj _ _ _ _ J) Inv0 (incl_refl _)) as (t1 & E1 & I1).
  { intros q E; discriminate. }
  destruct (push_again r (S (length (tnodes t0))) None t1 Fu (jo_adj _ _ _ _ J) I1 (incl_refl _)) as (t2 & E2 & I2).
  exists (set_valid true t2).
  assert (SK := skel_calc t0). unfold calculate_messages in SK |- *. rewrite Er in *. rewrite E1 in *. rewrite E2 in *. cbn [fst] in SK.
  split; [reflexivity|]. split; [apply I2|]. split; [exact SK|]. split; [reflexivity|].
  unfold calibrated. rewrite (cvo_skel _ _ SK).
  assert (F : final dom U cv sv L t2 r) by (apply final_again; [exact I2|exact C|apply incl_refl]).
  revert F. clear. intros F. eapply final_frame; [exact F| |]; reflexivity.
Qed.
End Again.

(** Queries and message passing keep the loaded or calibrated state. *)
Definition holds (t : jtree) (r : rtree) (sv : string -> list string) (W : asg -> Qc) : Prop :=
  jt_ok b t r sv /\ (tvalid t = true /\ calibrated b t r sv W \/ tvalid t = false /\ loaded b t W).

Lemma calc_holds t r sv ev : nonneg_bn b -> ev_ok b ev -> holds t r sv (iweight b ev) ->
  exists t', calculate_messages t = (t', Ok tt) /\ holds t' r sv (iweight b ev) /\ tvalid t' = true.
Proof.
  intros NN EV (J & [[V C]|[V L]]).
  - destruct (calculate_again t r sv (iweight b ev) J C (iweight_ext b WB ev)) as (t' & E & _ & S & V' & C').
    { intros a _. apply iweight_nonneg; assumption. }
    exists t'. split; [exact E|]. split; [|exact V']. split; [|left; auto].
    eapply jt_ok_same; [reflexivity|symmetry; exact S|exact J].
  - destruct (calculate_calibrates b WB t r sv _ J L) as (t' & E & S & V' & C').
    exists t'. split; [exact E|]. split; [|exact V']. split; [|left; auto].
    eapply jt_ok_same; [reflexivity|symmetry; exact S|exact J].
Qed.

Lemma in_clique_skel t t' Q : skel t = skel t' -> in_clique t Q -> in_clique t' Q.
Proof. intros E (k & A & B). exists k. rewrite <- (cvo_skel _ _ E), <- (skel_keys _ _ E). auto. Qed.

Lemma marginals_holds t r sv ev Q : nonneg_bn b -> ev_ok b ev -> holds t r sv (iweight b ev) ->
  holds (fst (tmarginals t Q)) r sv (iweight b ev) /\
  (NoDup Q -> in_clique t Q -> exists f, snd (tmarginals t Q) = Ok f /\ reports b f Q (posterior b ev)).
Proof.
  intros NN EV H. destruct (calc_holds t r sv ev NN EV H) as (t' & E & H' & V').
  assert (H0 := H). destruct H as (J & [[V C]|[V L]]).
  - split.
    + unfold tmarginals. rewrite V. exact H0.
    + intros ND I. destruct (query_posterior ev t r sv Q NN EV ND J V C I) as (f & Ef & Rf). rewrite Ef. exists f. split; [reflexivity|exact Rf].
  - assert (TE : tmarginals t Q = tmarginals t' Q).
    { unfold tmarginals at 1. rewrite V, E. unfold tmarginals. rewrite V'. reflexivity. }
    rewrite TE. destruct H' as (J' & [[_ C']|[V'' _]]); [|congruence]. split.
    + unfold tmarginals. rewrite V'. split; [exact J'|]. left; auto.
    + intros ND I. destruct (query_posterior ev t' r sv Q NN EV ND J' V' C') as (f & Ef & Rf).
      { eapply in_clique_skel; [|exact I]. assert (SK := skel_calc t). rewrite E in SK. symmetry; exact SK. }
      rewrite Ef. exists f. split; [reflexivity|exact Rf].
Qed.

End Tree.
