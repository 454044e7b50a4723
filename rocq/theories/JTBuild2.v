(** build_tree on a pruned cluster sequence gives a rooted junction tree. *)
From Verif Require Import Base BaseFacts NDArray Factor FactorFacts Exact Spec SpecFacts Order OrderSpec OrderProof
  JoinTree HuginPure Hugin JTProof JTBuild.

(** Adding a leaf [x] below [d]. *)
Inductive grafted (d x : string) : rtree -> rtree -> Prop :=
| G_here cs : grafted d x (RT d cs) (RT d (cs ++ [RT x []]))
| G_below k l1 c c' l2 : grafted d x c c' -> grafted d x (RT k (l1 ++ c :: l2)) (RT k (l1 ++ c' :: l2)).

Lemma grafted_ex d x r : In d (rkeys r) -> exists r', grafted d x r r'.
Proof.
  induction r as [k cs IH] using rtree_ind'. cbn. intros [->|H].
  - eexists. constructor.
  - apply in_flat_map in H as (c & Hc & Hd). rewrite Forall_forall in IH. destruct (IH c Hc Hd) as (c' & G).
    apply in_split in Hc as (l1 & l2 & ->). eexists. econstructor. exact G.
Qed.

Section Graft.
Variables d x : string.

Lemma grafted_rkey r r' : grafted d x r r' -> rkey r' = rkey r.
Proof. destruct 1; reflexivity. Qed.

Lemma grafted_in r r' : grafted d x r r' -> In d (rkeys r).
Proof.
  induction 1 as [cs|k l1 c c' l2 G IH]; cbn; [auto|]. right. rewrite flat_map_app. apply in_or_app. right. cbn.
  apply in_or_app; auto.
Qed.

Lemma grafted_rkeys r r' : grafted d x r r' -> Permutation (rkeys r') (x :: rkeys r).
Proof.
  induction 1 as [cs|k l1 c c' l2 G IH]; cbn.
  - rewrite flat_map_app. cbn. rewrite perm_swap. apply perm_skip. rewrite Permutation_app_comm. reflexivity.
  - rewrite perm_swap. apply perm_skip. rewrite !flat_map_app. cbn. rewrite IH.
    cbn. symmetry. apply Permutation_middle.
Qed.

Variables cv sv : string -> list string.

Lemma grafted_allp r r' : grafted d x r r' -> Permutation (allp cv sv r') (priv cv sv x ++ allp cv sv r).
Proof.
  induction 1 as [cs|k l1 c c' l2 G IH]; cbn.
  - rewrite flat_map_app. cbn. rewrite !app_nil_r.
    rewrite app_assoc. apply Permutation_app_comm.
  - rewrite !flat_map_app. cbn. rewrite IH.
    transitivity ((priv cv sv k ++ flat_map (allp cv sv) l1) ++ priv cv sv x ++ (allp cv sv c ++ flat_map (allp cv sv) l2)).
    + rewrite <- !app_assoc. reflexivity.
    + rewrite Permutation_app_swap_app, <- !app_assoc. reflexivity.
Qed.

Lemma rjt_cv_allp r : rjt cv sv r -> forall v, In v (allp cv sv r) -> exists k, In k (rkeys r) /\ In v (cv k).
Proof.
  induction r as [k cs IH] using rtree_ind'. intros J v Hv. cbn in Hv. apply rjt_inv in J as (_ & _ & Jc & _).
  apply in_app_or in Hv as [Hv|Hv].
  - exists k. split; [left; reflexivity|]. apply minus_In in Hv; tauto.
  - apply in_flat_map in Hv as (c & Hc & Hv). rewrite Forall_forall in IH, Jc.
    destruct (IH c Hc (Jc c Hc) v Hv) as (k' & Hk & H). exists k'. split; [|exact H]. cbn. right. apply in_flat_map; eauto.
Qed.

Lemma rjt_sv_incl r : rjt cv sv r -> incl (sv (rkey r)) (cv (rkey r)).
Proof. intros J. destruct r. apply rjt_inv in J. cbn. tauto. Qed.

Hypothesis NDx : NoDup (cv x).
Hypothesis Sx : incl (sv x) (cv x).
Hypothesis Sd : incl (sv x) (cv d).

Lemma rjt_leaf : rjt cv sv (RT x []).
Proof.
  constructor; auto.
  - cbn. rewrite app_nil_r. apply minus_NoDup, NDx.
  - intros v Hv. cbn. rewrite app_nil_r. intros H. apply minus_In in H. tauto.
Qed.

Lemma rjt_grafted r r' : grafted d x r r' -> rjt cv sv r ->
  (forall v, In v (priv cv sv x) -> forall k, In k (rkeys r) -> ~ In v (cv k)) -> rjt cv sv r'.
Proof.
  induction 1 as [cs|k l1 c c' l2 G IH]; intros J N; assert (J0 := J); apply rjt_inv in J as (J1 & J2 & J3 & J4 & J5 & J6).
  - assert (P : Permutation (priv cv sv d ++ flat_map (allp cv sv) (cs ++ [RT x []])) (priv cv sv x ++ (priv cv sv d ++ flat_map (allp cv sv) cs))).
    { rewrite flat_map_app. cbn. rewrite !app_nil_r. rewrite app_assoc. apply Permutation_app_comm. }
    assert (D : forall v, In v (priv cv sv x) -> ~ In v (priv cv sv d ++ flat_map (allp cv sv) cs)).
    { intros v Hv Hi. destruct (rjt_cv_allp (RT d cs) J0 v Hi) as (k & Hk & Hc). exact (N v Hv k Hk Hc). }
    constructor; try assumption.
    + apply Forall_app; split; [assumption|]. constructor; [apply rjt_leaf|constructor].
    + apply Forall_app; split; [assumption|]. constructor; [exact Sd|constructor].
    + apply (Permutation_NoDup (Permutation_sym P)). apply NoDup_app_disj; [apply minus_NoDup, NDx|exact J5|].
      intros v Hv. apply D, Hv.
    + intros v Hv Hi. apply (Permutation_in v P) in Hi. apply in_app_or in Hi as [Hi|Hi]; [|apply (J6 v Hv Hi)].
      apply (N v Hi d); [left; reflexivity|]. apply J2, Hv.
  - assert (IN : forall k', In k' (rkeys c) -> In k' (rkeys (RT k (l1 ++ c :: l2)))).
    { intros k' Hk'. cbn. right. apply in_flat_map. exists c. split; [apply in_elt|exact Hk']. }
    assert (Jc : rjt cv sv c) by (rewrite Forall_forall in J3; apply J3, in_elt).
    assert (Jc' : rjt cv sv c') by (apply IH; [exact Jc|]; intros v Hv k' Hk'; apply (N v Hv), IN, Hk').
    assert (P : Permutation (priv cv sv k ++ flat_map (allp cv sv) (l1 ++ c' :: l2))
                  (priv cv sv x ++ (priv cv sv k ++ flat_map (allp cv sv) (l1 ++ c :: l2)))).
    { apply (grafted_allp (RT k (l1 ++ c :: l2)) (RT k (l1 ++ c' :: l2))). constructor; exact G. }
    assert (D : forall v, In v (priv cv sv x) -> ~ In v (priv cv sv k ++ flat_map (allp cv sv) (l1 ++ c :: l2))).
    { intros v Hv Hi. destruct (rjt_cv_allp (RT k (l1 ++ c :: l2)) J0 v Hi) as (k' & Hk & Hc). exact (N v Hv k' Hk Hc). }
    constructor; try assumption.
    + apply Forall_app in J3 as [Ja Jb]. inversion Jb; subst. apply Forall_app; split; [exact Ja|]. constructor; assumption.
    + apply Forall_app in J4 as [Ja Jb]. inversion Jb; subst. apply Forall_app; split; [exact Ja|]. constructor; [|assumption].
      rewrite (grafted_rkey _ _ G). assumption.
    + apply (Permutation_NoDup (Permutation_sym P)). apply NoDup_app_disj; [apply minus_NoDup, NDx|exact J5|].
      intros v Hv. apply D, Hv.
    + intros v Hv Hi. apply (Permutation_in v P) in Hi. apply in_app_or in Hi as [Hi|Hi]; [|apply (J6 v Hv Hi)].
      apply (N v Hi k); [left; reflexivity|]. apply J2, Hv.
Qed.

Lemma adjok_ext adj adj' p r : (forall k, In k (rkeys r) -> neighbours adj' k = neighbours adj k) -> adjok adj p r -> adjok adj' p r.
Proof.
  revert p. induction r as [k cs IH] using rtree_ind'. intros p E H. inversion H as [? ? ? A B]; subst. constructor.
  - rewrite E by (left; reflexivity). exact A.
  - rewrite Forall_forall in *. intros c Hc. apply IH; [exact Hc| |apply B, Hc].
    intros k' Hk'. apply E. cbn. right. apply in_flat_map; eauto.
Qed.

Lemma adjok_grafted adj adj' r r' : grafted d x r r' ->
  (forall k, k <> d -> k <> x -> neighbours adj' k = neighbours adj k) ->
  neighbours adj' d = neighbours adj d ++ [x] -> neighbours adj' x = [d] -> NoDup (x :: rkeys r) ->
  forall p, p <> Some x -> adjok adj p r -> adjok adj' p r'.
Proof.
  intros G E0 Ed Ex. induction G as [cs|k l1 c c' l2 G IH]; intros ND p Np H; inversion H as [? ? ? A B]; subst.
  - constructor.
    + rewrite Ed, filter_app, A, map_app. cbn.
      assert (is_parent p x = false) as ->; [|reflexivity].
      destruct p as [q|]; [|reflexivity]. cbn. apply eqb_neq_s. congruence.
    + apply Forall_app; split.
      * rewrite Forall_forall in *. intros c Hc. apply (adjok_ext adj); [|apply B, Hc].
        intros k Hk. inversion ND as [|? ? N1 N2]; subst. cbn in N1, N2. inversion N2 as [|? ? N3 N4]; subst.
        assert (In k (flat_map rkeys cs)) by (apply in_flat_map; eauto).
        apply E0; [intros ->; contradiction|intros ->; apply N1; right; assumption].
      * constructor; [|constructor]. constructor; [|constructor]. rewrite Ex. cbn. rewrite eqb_refl_s. reflexivity.
  - assert (Hd := grafted_in _ _ G). inversion ND as [|? ? N1 N2]; subst. cbn in N1, N2. inversion N2 as [|? ? N3 N4]; subst.
    rewrite flat_map_app in N3, N4, N1. cbn in N3, N4, N1. 
    assert (ND2 := NoDup_app_r _ _ N4). assert (NDc := NoDup_app_l _ _ ND2).
    constructor.
    + rewrite E0.
      * rewrite A, !map_app. cbn. rewrite (grafted_rkey _ _ G). reflexivity.
      * intros ->. apply N3. apply in_or_app; right; apply in_or_app; auto.
      * intros ->. apply N1; auto.
    + apply Forall_app in B as [B1 B2]. inversion B2 as [|? ? B3 B4]; subst. apply Forall_app; split; [|constructor].
      * rewrite Forall_forall in *. intros c0 Hc. apply (adjok_ext adj); [|apply B1, Hc].
        intros k' Hk'. assert (K : In k' (flat_map rkeys l1)) by (apply in_flat_map; eauto). apply E0.
        -- intros ->. apply (NoDup_app_no _ _ d N4 K). apply in_or_app; auto.
        -- intros ->. apply N1. right. apply in_or_app; auto.
      * apply IH; [|intros K; inversion K; subst; apply N1; auto|exact B3]. constructor; [|exact NDc].
        intros K. apply N1. right. apply in_or_app; right; apply in_or_app; auto.
      * rewrite Forall_forall in *. intros c0 Hc. apply (adjok_ext adj); [|apply B4, Hc].
        intros k' Hk'. assert (K : In k' (flat_map rkeys l2)) by (apply in_flat_map; eauto). apply E0.
        -- intros ->. apply (NoDup_app_no _ _ d ND2 Hd K).
        -- intros ->. apply N1. right. apply in_or_app; right; apply in_or_app; auto.
Qed.

Lemma seps_ne_grafted r r' : grafted d x r r' -> sv x <> [] -> seps_ne sv r -> seps_ne sv r'.
Proof.
  intros G Nx. induction G as [cs|k l1 c c' l2 G IH]; intros H; inversion H as [? ? A B]; subst.
  - constructor; apply Forall_app; split; auto. constructor; [|constructor]. constructor; constructor.
  - apply Forall_app in A as [A1 A2], B as [B1 B2]. inversion A2; inversion B2; subst.
    constructor; apply Forall_app; split; auto. constructor; [rewrite (grafted_rkey _ _ G)|]; assumption.
Qed.

Lemma seps_ok_ext t t' r : (forall u v, In u (rkeys r) -> In v (rkeys r) -> sget u v (seps_of t') = sget u v (seps_of t)) ->
  seps_ok t sv r -> seps_ok t' sv r.
Proof.
  induction r as [k cs IH] using rtree_ind'. intros E H. inversion H as [? ? A B]; subst. 
  assert (X : forall c, In c cs -> forall u, In u (rkeys c) -> In u (rkeys (RT k cs))).
  { intros c Hc u Hu. cbn. right. apply in_flat_map; eauto. }
  assert (Y : forall c, In (rkey c) (rkeys c)) by (intros [? ?]; left; reflexivity).
  rewrite Forall_forall in *. constructor; apply Forall_forall; intros c Hc.
  - rewrite E; [apply A, Hc|eapply X; eauto|left; reflexivity].
  - apply IH; [exact Hc| |apply B, Hc]. intros u v Hu Hv. apply E; eapply X; eauto.
Qed.

Lemma seps_ok_grafted t t' r r' : grafted d x r r' ->
  (forall u v, u <> x -> v <> x -> sget u v (seps_of t') = sget u v (seps_of t)) ->
  sget x d (seps_of t') = Some (sv x) -> ~ In x (rkeys r) -> seps_ok t sv r -> seps_ok t' sv r'.
Proof.
  intros G E Ex. induction G as [cs|k l1 c c' l2 G IH]; intros Nx H.
  - assert (H' : seps_ok t' sv (RT d cs)).
    { apply (seps_ok_ext t); [|exact H]. intros u v Hu Hv. apply E; intros ->; contradiction. }
    inversion H' as [? ? A B]; subst. constructor; apply Forall_app; split; auto. constructor; [|constructor]. constructor; constructor.
  - assert (H' : seps_ok t' sv (RT k (l1 ++ c :: l2))).
    { apply (seps_ok_ext t); [|exact H]. intros u v Hu Hv. apply E; intros ->; contradiction. }
    inversion H' as [? ? A B]; subst. inversion H as [? ? A' B']; subst. 
    apply Forall_app in A as [A1 A2], B as [B1 B2], B' as [_ B2']. inversion A2; inversion B2; inversion B2'; subst.
    constructor; apply Forall_app; split; auto; constructor; auto.
    + rewrite (grafted_rkey _ _ G). assumption.
    + apply IH; [|assumption]. intros K. apply Nx. cbn. right. rewrite flat_map_app. cbn.
      apply in_or_app; right; apply in_or_app; auto.
Qed.
End Graft.

(** ** Lists of neighbours after adding an edge *)
Lemma add_nbr_eq u v g w : ~ In v (neighbours g u) ->
  neighbours (add_nbr u v g) w = if String.eqb w u then neighbours g u ++ [v] else neighbours g w.
Proof. intros H. unfold add_nbr. apply mem_nIn in H. rewrite H. apply neighbours_dset. Qed.

Lemma add_uedge_eq u v g w : In u (dkeys g) -> In v (dkeys g) -> u <> v -> ~ In v (neighbours g u) -> ~ In u (neighbours g v) ->
  neighbours (add_uedge u v g) w =
    if String.eqb w v then neighbours g v ++ [u] else if String.eqb w u then neighbours g u ++ [v] else neighbours g w.
Proof.
  intros Hu Hv N N1 N2. unfold add_uedge. rewrite (ensure_id u g Hu), (ensure_id v g Hv).
  assert (E : forall w, neighbours (add_nbr u v g) w = if String.eqb w u then neighbours g u ++ [v] else neighbours g w)
    by (intros; apply add_nbr_eq, N1).
  assert (Ev : neighbours (add_nbr u v g) v = neighbours g v) by (rewrite E, eqb_neq_s by congruence; reflexivity).
  rewrite add_nbr_eq by (rewrite Ev; exact N2). rewrite Ev, E. reflexivity.
Qed.

Lemma neighbours_ensure k g w : neighbours (ensure k g) w = neighbours g w.
Proof.
  unfold ensure. destruct (dmem k g) eqn:M; [reflexivity|]. rewrite neighbours_dset.
  destruct (String.eqb_spec w k) as [->|N]; [|reflexivity]. unfold neighbours. apply dmem_nIn, dget_None in M. rewrite M. reflexivity.
Qed.

Lemma dkeys_ensure k g : ~ In k (dkeys g) -> dkeys (ensure k g) = dkeys g ++ [k].
Proof.
  intros N. unfold ensure. rewrite (proj2 (dmem_nIn k g) N). rewrite dkeys_dset. apply mem_nIn in N. rewrite N. reflexivity.
Qed.

(** ** The separators of a cluster sequence *)
Fixpoint svL (L : list (list string)) (k : string) : list string :=
  match L with [] => [] | c :: post => if String.eqb (key_of c) k then jprop c post else svL post k end.

Lemma svL_split pre c post : NoDup (map key_of (pre ++ c :: post)) -> svL (pre ++ c :: post) (key_of c) = jprop c post.
Proof.
  induction pre as [|e pre IH]; cbn; intros ND.
  - rewrite eqb_refl_s. reflexivity.
  - inversion ND as [|? ? N ND']; subst. rewrite eqb_neq_s; [apply IH, ND'|].
    intros E. apply N. rewrite E, map_app. cbn. apply in_elt.
Qed.

Lemma jprop_In c post v : In v (jprop c post) <-> In v c /\ exists e, In e post /\ In v e.
Proof.
  unfold jprop. rewrite filter_In, existsb_exists. split; intros [H (e & He & Hv)]; (split; [exact H|]); exists e; (split; [exact He|]);
    apply mem_In; exact Hv.
Qed.

Section Build.
Variables cv sv : string -> list string.

Definition tgood (L : list (list string)) (t : jtree) (r : rtree) : Prop :=
  (exists rest, dkeys (tnodes t) = rkey r :: rest) /\
  (forall k, In k (dkeys (tnodes t)) <-> In k (map key_of L)) /\ NoDup (dkeys (tnodes t)) /\
  (forall k, In k (dkeys (tadj t)) <-> In k (map key_of L)) /\ (forall w, incl (neighbours (tadj t) w) (map key_of L)) /\
  Permutation (rkeys r) (map key_of L) /\ adjok (tadj t) None r /\ rjt cv sv r /\ seps_ne sv r /\ sv (rkey r) = [] /\
  seps_ok t sv r /\ forall c, In c L -> dget (key_of c) (tnodes t) = Some (mkC c (trivial 1%Qc)).

Lemma build_good L : L <> [] -> rip L -> NoDup (map key_of L) -> (forall c, In c L -> NoDup c) ->
  (forall c, In c L -> cv (key_of c) = c) ->
  (forall pre c post, L = pre ++ c :: post -> sv (key_of c) = jprop c post) ->
  exists r, tgood L (build_tree L) r.
Proof.
  induction L as [|c post IH]; [congruence|]. intros _ RI ND NC HC HS.
  assert (HSc := HS [] c post eq_refl).
  assert (HCc : cv (key_of c) = c) by (apply HC; left; reflexivity).
  destruct post as [|c1 post'] eqn:EP.
  - exists (RT (key_of c) []). 
    assert (E0 : jprop c [] = []) by (unfold jprop; clear; induction c; cbn; auto).
    rewrite E0 in HSc. unfold tgood. cbn [build_tree]. rewrite E0. cbn.
    split; [eexists; reflexivity|]. split; [tauto|]. split; [constructor; [tauto|constructor]|]. split; [tauto|].
    split; [intros w; unfold neighbours; cbn; destruct (String.eqb w (key_of c)); intros ? []|].
    split; [reflexivity|]. split; [constructor; [unfold neighbours; cbn; rewrite eqb_refl_s; reflexivity|constructor]|].
    split; [|split; [constructor; constructor|split; [exact HSc|split; [constructor; constructor|]]]].
    + apply rjt_leaf.
      * rewrite HCc. apply NC; left; reflexivity.
      * rewrite HSc. intros ? [].
    + intros c' [<-|[]]. rewrite eqb_refl_s. reflexivity.
  - rewrite <- EP in *. assert (Np : post <> []) by (rewrite EP; discriminate). clear c1 post' EP.
    destruct IH as (r & (G1 & G2 & G3 & G4 & G5 & G6 & G7 & G8 & G9 & G10 & G11 & G12)).
    + exact Np. + apply rip_tail in RI; exact RI. + cbn in ND; inversion ND; assumption.
    + intros; apply NC; right; assumption. + intros; apply HC; right; assumption.
    + intros pre e po E. apply (HS (c :: pre)). rewrite E; reflexivity.
    + destruct (RI [] c post eq_refl Np) as [(d0 & Hd0 & Id0) (v0 & e0 & Hv0 & He0 & Hv0e)].
      cbn [build_tree]. set (t0 := build_tree post) in *. set (x := key_of c) in *.
      assert (Nx : ~ In x (map key_of post)) by (cbn in ND; inversion ND; assumption).
      assert (NE : jprop c post <> []).
      { intros E. assert (K : In v0 (jprop c post)) by (apply jprop_In; eauto). rewrite E in K. exact K. }
      assert (FD : exists d, find (fun d => subset (jprop c post) d) post = Some d).
      { destruct (find (fun d => subset (jprop c post) d) post) as [d|] eqn:EF; [eauto|].
        exfalso. assert (K := find_none _ _ EF d0 Hd0). cbn in K. apply not_true_iff_false in K. apply K.
        apply subset_spec. intros v Hv. apply jprop_In in Hv as (Hv & e & He & Hve). apply (Id0 v e); assumption. }
      destruct FD as (d & EF). rewrite EF. destruct (find_some _ _ EF) as [Hd Sd]. apply subset_spec in Sd. clear EF.
      destruct (jprop c post) as [|s0 s'] eqn:EJ; [congruence|]. rewrite <- EJ in *. clear s0 s' EJ.
      set (y := key_of d). assert (Hy : In y (map key_of post)) by (apply in_map, Hd).
      assert (Nyx : x <> y) by (intros E; apply Nx; rewrite E; exact Hy).
      assert (HCd : cv y = d) by (apply HC; right; exact Hd).
      assert (Hyr : In y (rkeys r)) by (apply (Permutation_in y (Permutation_sym G6)), Hy).
      destruct (grafted_ex y x r Hyr) as (r' & G). exists r'.
      assert (Nxr : ~ In x (rkeys r)) by (intros K; apply Nx, (Permutation_in x G6), K).
      assert (NDr : NoDup (x :: rkeys r)).
      { constructor; [exact Nxr|]. apply (Permutation_NoDup (Permutation_sym G6)). cbn in ND. inversion ND; assumption. }
      assert (Kn : dkeys (tnodes t0) ++ [x] = dkeys (dset x (mkC c (trivial 1)) (tnodes t0))).
      { rewrite dkeys_dset. rewrite (proj2 (mem_nIn x _)) by (rewrite G2; exact Nx). reflexivity. }
      assert (Ka : dkeys (ensure x (tadj t0)) = dkeys (tadj t0) ++ [x]) by (apply dkeys_ensure; rewrite G4; exact Nx).
      assert (Nbx : neighbours (tadj t0) x = []).
      { unfold neighbours. destruct (dget x (tadj t0)) as [l|] eqn:EG; [|reflexivity].
        exfalso. apply dget_Some_key in EG. apply G4 in EG. contradiction. }
      assert (Hxk : In x (dkeys (ensure x (tadj t0)))) by (rewrite Ka; apply in_or_app; right; left; reflexivity).
      assert (Hyk : In y (dkeys (ensure x (tadj t0)))) by (rewrite Ka; apply in_or_app; left; apply G4, Hy).
      assert (NB : forall w, neighbours (add_uedge x y (ensure x (tadj t0))) w =
        if String.eqb w y then neighbours (tadj t0) y ++ [x] else if String.eqb w x then [y] else neighbours (tadj t0) w).
      { intros w. rewrite add_uedge_eq; try assumption.
        - rewrite !neighbours_ensure, Nbx. reflexivity.
        - rewrite neighbours_ensure, Nbx. tauto.
        - rewrite neighbours_ensure. intros K. apply Nx, (G5 y), K. }
      unfold tgood. cbn [add_sep add_clique tnodes tadj tedges tvalid].
      split; [|split; [|split; [|split; [|split; [|split; [|split; [|split; [|split; [|split; [|split]]]]]]]]]].
      * rewrite <- Kn, (grafted_rkey _ _ _ _ G). destruct G1 as (rest & ->). exists (rest ++ [x]). reflexivity.
      * intros k. rewrite <- Kn, in_app_iff, G2. cbn. tauto.
      * rewrite <- Kn. apply NoDup_app_disj; [exact G3|constructor; [tauto|constructor]|].
        intros k Hk [<-|[]]. apply Nx, G2, Hk.
      * intros k. rewrite add_uedge_keys by assumption. rewrite Ka, in_app_iff, G4. cbn. tauto.
      * intros w u. rewrite NB. destruct (String.eqb w y); [|destruct (String.eqb w x)]; intros Hu.
        -- apply in_app_or in Hu as [Hu|[<-|[]]]; [right; apply (G5 y), Hu|left; reflexivity].
        -- destruct Hu as [<-|[]]. right; exact Hy.
        -- right; apply (G5 w), Hu.
      * rewrite (grafted_rkeys _ _ _ _ G). cbn. apply perm_skip, G6.
      * apply (adjok_grafted y x (tadj t0) _ r r' G); try assumption; try discriminate.
        -- intros k N1 N2. rewrite NB, !eqb_neq_s by assumption. reflexivity.
        -- rewrite NB, eqb_refl_s. reflexivity.
        -- rewrite NB, eqb_neq_s, eqb_refl_s by exact Nyx. reflexivity.
      * apply (rjt_grafted y x cv sv) with (r := r); try assumption.
        -- rewrite HCc. apply NC; left; reflexivity.
        -- rewrite HSc, HCc. intros v Hv. apply jprop_In in Hv; tauto.
        -- rewrite HSc, HCd. exact Sd.
        -- intros v Hv k Hk Hvk. apply minus_In in Hv as [Hv Hn]. rewrite HCc in Hv. rewrite HSc in Hn.
           apply Hn, jprop_In. split; [exact Hv|]. apply (Permutation_in k G6) in Hk. apply in_map_iff in Hk as (e & <- & He).
           exists e. split; [exact He|]. rewrite HC in Hvk by (right; exact He). exact Hvk.
      * apply (seps_ne_grafted y x sv r r' G); [rewrite HSc; exact NE|exact G9].
      * rewrite (grafted_rkey _ _ _ _ G). exact G10.
      * apply (seps_ok_grafted y x sv t0 _ r r' G); try assumption.
        -- intros u v Nu Nv. rewrite !sget_seps. cbn [add_sep add_clique tedges]. rewrite eget_eset.
           destruct (same_edge u v (x, y)) eqn:SE; [|reflexivity].
           apply same_edge_spec in SE. exfalso. destruct SE as [SE|SE]; congruence.
        -- rewrite sget_seps. cbn [add_sep add_clique tedges]. rewrite eget_eset.
           replace (same_edge x y (x, y)) with true by (symmetry; apply same_edge_spec; auto). cbn. rewrite HSc. reflexivity.
      * intros c' [<-|Hc'].
        -- fold x. rewrite dget_dset_eq. reflexivity.
        -- rewrite dget_dset_neq; [apply G12, Hc'|]. intros E. apply Nx. rewrite <- E. apply in_map, Hc'.
Qed.
End Build.
