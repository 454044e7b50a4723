(** All join trees, whatever the elimination order: structure, and the state
    after any sequence of calls. *)
From Verif Require Import Base BaseFacts NDArray NDArrayFacts SumCalc Factor FactorFacts Exact Spec SpecFacts
  VEProof VEProof2 Order OrderSpec OrderProof JoinTree HuginPure Hugin JTProof JTProof2 JTBuild JTBuild2 TreeSpec JTConnect JTBuild3 JTHistory JTAgain.

(** ** The forest of an arbitrary cluster sequence *)
Lemma grafted_redges d x r r' : grafted d x r r' -> forall e, In e (redges r') -> In e (redges r) \/ e = (d, x).
Proof.
  induction 1 as [cs|k l1 c c' l2 G IH]; intros e He; cbn [redges] in *.
  - rewrite map_app, flat_map_app in He. cbn in He. rewrite app_nil_r in He.
    apply in_app_or in He as [He|He]; [|left; apply in_or_app; auto].
    apply in_app_or in He as [He|[He|[]]]; [left; apply in_or_app; auto|right; congruence].
  - rewrite map_app, flat_map_app in *. cbn [map flat_map] in *. rewrite (grafted_rkey _ _ _ _ G) in He.
    apply in_app_or in He as [He|He]; [left; apply in_or_app; auto|].
    apply in_app_or in He as [He|He]; [left; apply in_or_app; right; apply in_or_app; auto|].
    apply in_app_or in He as [He|He]; [|left; apply in_or_app; right; apply in_or_app; right; apply in_or_app; auto].
    destruct (IH e He) as [K|K]; [left; apply in_or_app; right; apply in_or_app; right; apply in_or_app; auto|auto].
Qed.

Record forest (L : list (list string)) (t : jtree) (r : rtree) : Prop := {
  fo_root : exists rest, dkeys (tnodes t) = rkey r :: rest;
  fo_keys : forall k, In k (dkeys (tnodes t)) <-> In k (map key_of L);
  fo_nodup : NoDup (dkeys (tnodes t));
  fo_adjk : forall k, In k (dkeys (tadj t)) <-> In k (map key_of L);
  fo_nbr : forall w, incl (neighbours (tadj t) w) (map key_of L);
  fo_rk : incl (rkeys r) (map key_of L);
  fo_rnd : NoDup (rkeys r);
  fo_adj : adjok (tadj t) None r;
  fo_edge : forall e, In e (redges r) -> hase t (snd e) (fst e);
  fo_cl : forall k c, dget k (tnodes t) = Some c -> In (cvars c) L /\ k = key_of (cvars c) /\ cfac c = trivial 1%Qc;
  fo_se : forall u v s, eget u v (tedges t) = Some s -> In u (map key_of L) /\ In v (map key_of L) /\ sfac s = trivial 1%Qc /\
     (forall c, dget u (tnodes t) = Some c -> incl (svars s) (cvars c)) /\ (forall c, dget v (tnodes t) = Some c -> incl (svars s) (cvars c))
}.

Lemma build_forest L : L <> [] -> NoDup (map key_of L) -> exists r, forest L (build_tree L) r.
Proof.
  induction L as [|c post IH]; [congruence|]. intros _ ND.
  destruct post as [|c1 post'] eqn:EP.
  - exists (RT (key_of c) []).
    assert (E0 : jprop c [] = []) by (unfold jprop; clear; induction c; cbn; auto).
    cbn [build_tree]. rewrite E0. split; cbn.
    + eexists; reflexivity. + tauto. + constructor; [tauto|constructor]. + tauto.
    + intros w; unfold neighbours; cbn; destruct (String.eqb w (key_of c)); intros ? [].
    + apply incl_refl. + constructor; [tauto|constructor].
    + constructor; [unfold neighbours; cbn; rewrite eqb_refl_s; reflexivity|constructor].
    + intros e [].
    + intros k d. destruct (String.eqb_spec k (key_of c)) as [->|]; [|discriminate]. intros E; inversion E; subst. cbn. auto.
    + discriminate.
  - rewrite <- EP in *. assert (Np : post <> []) by (rewrite EP; discriminate). clear c1 post' EP.
    destruct IH as (r & [G1 G2 G3 G4 G5 G6 G7 G8 G9 G10 G11]); [exact Np|cbn in ND; inversion ND; assumption|].
    cbn [build_tree]. set (t0 := build_tree post) in *. set (x := key_of c) in *.
    assert (Nx : ~ In x (map key_of post)) by (cbn in ND; inversion ND; assumption).
    assert (Kn : dkeys (tnodes t0) ++ [x] = dkeys (dset x (mkC c (trivial 1)) (tnodes t0))).
    { rewrite dkeys_dset. rewrite (proj2 (mem_nIn x _)) by (rewrite G2; exact Nx). reflexivity. }
    assert (Ka : dkeys (ensure x (tadj t0)) = dkeys (tadj t0) ++ [x]) by (apply dkeys_ensure; rewrite G4; exact Nx).
    assert (Nbx : neighbours (tadj t0) x = []).
    { unfold neighbours. destruct (dget x (tadj t0)) as [l|] eqn:EG; [|reflexivity].
      exfalso. apply dget_Some_key in EG. apply G4 in EG. contradiction. }
    assert (Root : exists rest, dkeys (dset x (mkC c (trivial 1)) (tnodes t0)) = rkey r :: rest).
    { rewrite <- Kn. destruct G1 as (rest & ->). exists (rest ++ [x]). reflexivity. }
    assert (Keys : forall k, In k (dkeys (dset x (mkC c (trivial 1)) (tnodes t0))) <-> In k (map key_of (c :: post))).
    { intros k. rewrite <- Kn, in_app_iff, G2. cbn. fold x. tauto. }
    assert (Knd : NoDup (dkeys (dset x (mkC c (trivial 1)) (tnodes t0)))).
    { rewrite <- Kn. apply NoDup_app_disj; [exact G3|constructor; [tauto|constructor]|]. intros k Hk [<-|[]]. apply Nx, G2, Hk. }
    assert (Cl : forall k d, dget k (dset x (mkC c (trivial 1)) (tnodes t0)) = Some d ->
              In (cvars d) (c :: post) /\ k = key_of (cvars d) /\ cfac d = trivial 1%Qc).
    { intros k d E. rewrite dget_dset in E. destruct (String.eqb_spec k x) as [->|].
      - inversion E; subst. cbn. auto.
      - destruct (G10 k d E) as (A & B & C). split; [right; exact A|auto]. }
    assert (Rx : ~ In x (rkeys r)) by (intros K; apply Nx, G6, K).
    (* without an edge *)
    assert (Alone : forest (c :: post) (add_clique x (mkC c (trivial 1%Qc)) t0) r).
    { split; cbn [add_clique tnodes tadj tedges].
      - exact Root. - exact Keys. - exact Knd.
      - intros k. rewrite Ka, in_app_iff, G4. cbn. tauto.
      - intros w u. rewrite neighbours_ensure. intros H. right. apply (G5 w), H.
      - intros k Hk. right. apply G6, Hk.
      - exact G7.
      - apply (adjok_ext (tadj t0)); [|exact G8]. intros k _. apply neighbours_ensure.
      - exact G9.
      - exact Cl.
      - intros u v s E. destruct (G11 u v s E) as (A & B & C & D & F). split; [right; exact A|]. split; [right; exact B|].
        split; [exact C|]. split; intros d Ed; rewrite dget_dset_neq in Ed; auto; intros ->; contradiction. }
    destruct (jprop c post) as [|s0 s'] eqn:EJ; [exists r; exact Alone|]. rewrite <- EJ in *. clear s0 s' EJ.
    destruct (find (fun d => subset (jprop c post) d) post) as [d|] eqn:EF; [|exists r; exact Alone].
    destruct (find_some _ _ EF) as [Hd Sd]. apply subset_spec in Sd. clear EF.
    set (y := key_of d). assert (Hy : In y (map key_of post)) by (apply in_map, Hd).
    assert (Nyx : x <> y) by (intros E; apply Nx; rewrite E; exact Hy).
    assert (Hxk : In x (dkeys (ensure x (tadj t0)))) by (rewrite Ka; apply in_or_app; right; left; reflexivity).
    assert (Hyk : In y (dkeys (ensure x (tadj t0)))) by (rewrite Ka; apply in_or_app; left; apply G4, Hy).
    assert (NB : forall w, neighbours (add_uedge x y (ensure x (tadj t0))) w =
      if String.eqb w y then neighbours (tadj t0) y ++ [x] else if String.eqb w x then [y] else neighbours (tadj t0) w).
    { intros w. rewrite add_uedge_eq; try assumption.
      - rewrite !neighbours_ensure, Nbx. reflexivity.
      - rewrite neighbours_ensure, Nbx. tauto.
      - rewrite neighbours_ensure. intros K. apply Nx, (G5 y), K. }
    assert (Adk : forall k, In k (dkeys (add_uedge x y (ensure x (tadj t0)))) <-> In k (map key_of (c :: post))).
    { intros k. rewrite add_uedge_keys by assumption. rewrite Ka, in_app_iff, G4. cbn. fold x. tauto. }
    assert (Nbr : forall w, incl (neighbours (add_uedge x y (ensure x (tadj t0))) w) (map key_of (c :: post))).
    { intros w u. rewrite NB. destruct (String.eqb w y); [|destruct (String.eqb w x)]; intros Hu.
      - apply in_app_or in Hu as [Hu|[<-|[]]]; [right; apply (G5 y), Hu|left; reflexivity].
      - destruct Hu as [<-|[]]. right; exact Hy.
      - right; apply (G5 w), Hu. }
    assert (Dy : forall e, dget y (dset x (mkC c (trivial 1)) (tnodes t0)) = Some e -> cvars e = d).
    { intros e E. rewrite dget_dset_neq in E by congruence. destruct (G10 y e E) as (A & B & _).
      assert (NDk : NoDup (map key_of post)) by (cbn in ND; inversion ND; assumption). clear - A B Hd NDk.
      unfold y in B. induction post as [|z post IHp]; [destruct Hd|]. cbn in NDk. inversion NDk as [|? ? N1 N2]; subst.
      destruct A as [A|A], Hd as [Hd|Hd]; subst; auto.
      - exfalso. apply N1. rewrite <- B. apply in_map, Hd.
      - exfalso. apply N1. rewrite B. apply in_map, A. }
    assert (Dx : forall e, dget x (dset x (mkC c (trivial 1)) (tnodes t0)) = Some e -> cvars e = c).
    { intros e E. rewrite dget_dset_eq in E. inversion E; reflexivity. }
    assert (Se : forall u v s, eget u v (eset x y (mkS (jprop c post) (trivial 1%Qc)) (tedges t0)) = Some s ->
       In u (map key_of (c :: post)) /\ In v (map key_of (c :: post)) /\ sfac s = trivial 1%Qc /\
       (forall e, dget u (dset x (mkC c (trivial 1)) (tnodes t0)) = Some e -> incl (svars s) (cvars e)) /\
       (forall e, dget v (dset x (mkC c (trivial 1)) (tnodes t0)) = Some e -> incl (svars s) (cvars e))).
    { assert (Jc : incl (jprop c post) c) by (intros w Hw; apply jprop_In in Hw; tauto).
      intros u v s E. rewrite eget_eset in E. destruct (same_edge u v (x, y)) eqn:SE.
      - inversion E; subst. cbn [svars sfac].
        apply same_edge_spec in SE as [SE|SE]; inversion SE; subst u v.
        + split; [left; reflexivity|]. split; [right; exact Hy|]. split; [reflexivity|].
          split; intros e Ee; [rewrite (Dx e Ee); exact Jc|rewrite (Dy e Ee); exact Sd].
        + split; [right; exact Hy|]. split; [left; reflexivity|]. split; [reflexivity|].
          split; intros e Ee; [rewrite (Dy e Ee); exact Sd|rewrite (Dx e Ee); exact Jc].
      - apply (fo_se _ _ _ Alone u v s E). }
    destruct (In_dec_s y (rkeys r)) as [Hyr|Nyr].
    + destruct (grafted_ex y x r Hyr) as (r' & G). exists r'.
      split; cbn [add_sep add_clique tnodes tadj tedges]; auto.
      * rewrite (grafted_rkey _ _ _ _ G). exact Root.
      * intros k Hk. apply (Permutation_in k (grafted_rkeys _ _ _ _ G)) in Hk as [<-|Hk]; [left; reflexivity|right; apply G6, Hk].
      * apply (Permutation_NoDup (Permutation_sym (grafted_rkeys _ _ _ _ G))). constructor; assumption.
      * apply (adjok_grafted y x (tadj t0) _ r r' G); try assumption; try discriminate.
        -- intros k N1 N2. rewrite NB, !eqb_neq_s by assumption. reflexivity.
        -- rewrite NB, eqb_refl_s. reflexivity.
        -- rewrite NB, eqb_neq_s, eqb_refl_s by exact Nyx. reflexivity.
        -- constructor; assumption.
      * intros e He. unfold hase. cbn [add_sep add_clique tedges]. rewrite eget_eset.
        destruct (grafted_redges _ _ _ _ G e He) as [K| -> ]; cbn [fst snd].
        -- destruct (same_edge (snd e) (fst e) (x, y)); [eauto|]. apply G9, K.
        -- rewrite same_edge_refl. eauto.
    + exists r. split; cbn [add_sep add_clique tnodes tadj tedges]; auto.
      * intros k Hk. right. apply G6, Hk.
      * apply (adjok_ext (tadj t0)); [|exact G8]. intros k Hk. rewrite NB, !eqb_neq_s; [reflexivity| |]; intros ->; contradiction.
      * intros e He. unfold hase. cbn [add_sep add_clique tedges]. rewrite eget_eset.
        destruct (same_edge (snd e) (fst e) (x, y)); [eauto|]. apply G9, He.
Qed.

(** ** Clusters of arbitrary orders *)
Lemma cluster_seq_facts names o : forall g cs, ug g -> incl (dkeys g) names -> cluster_seq o g = Ok cs ->
  NoDup o /\ incl o (dkeys g) /\ map head cs = o /\ forall c, In c cs -> NoDup c /\ c <> [] /\ incl c names.
Proof.
  induction o as [|v o IH]; intros g cs G K E; cbn in E.
  - inversion E; subst. split; [constructor|]. split; [intros ? []|]. split; [reflexivity|intros ? []].
  - destruct (dmem v g) eqn:M; [|discriminate]. apply dmem_In in M.
    destruct (remove_unode_spec v g G) as (G' & K' & S').
    destruct (cluster_seq o (remove_unode v g)) as [cs'|] eqn:E'; [|discriminate]. inversion E; subst.
    destruct (IH _ _ G' (fun w Hw => K w (proj1 (proj1 (K' w) Hw))) E') as (A & B & C & D).
    split; [|split; [|split]].
    + constructor; [|exact A]. intros H. apply B, K' in H. tauto.
    + intros w [<-|Hw]; [exact M|]. apply B, K' in Hw. tauto.
    + cbn. rewrite C. reflexivity.
    + intros c [<-|Hc]; [|apply D, Hc]. split; [|split; [discriminate|]].
      * constructor; [|apply G]. intros H. apply (ug_in _ G) in H. tauto.
      * intros w [<-|Hw]; [apply K, M|]. apply (ug_in _ G) in Hw. apply K. tauto.
Qed.

Lemma moral_ug b : wf_bn b -> wf_graph b -> ug (moral_graph b) /\ dkeys (moral_graph b) = border b.
Proof.
  intros WB WG. destruct (to_undirected_spec b WG) as (G & K & S). unfold moral_graph.
  destruct (fold_edges_spec (flat_map (fun n => moral_pairs (dn_pdict n)) (bnodes b)) (to_undirected b) G) as (G' & K' & S').
  - intros u v H. apply in_flat_map in H as (n & Hn & H). apply moral_pairs_In in H as (Hu & Hv & N). rewrite K.
    assert (P := wn_pdict _ _ (wb_nodes _ WB n Hn)).
    apply (Permutation_in u P) in Hu. apply (Permutation_in v P) in Hv.
    split; [|split; [|exact N]]; apply (Permutation_in _ (wg_nodes _ WG)); eapply parent_name; eauto.
  - split; [exact G'|]. etransitivity; [exact K'|exact K].
Qed.

(** ** Pruning keeps some of the clusters, each once *)
Lemma prune_some cs : NoDup cs -> exists L, prune cs = Ok L /\ NoDup L /\ incl L cs /\ (cs <> [] -> L <> []).
Proof.
  intros NDc. unfold prune, swaps.
  assert (H : forall pre post L, cs = pre ++ post -> NoDup L -> incl pre L -> incl L cs -> (cs <> [] -> L <> []) ->
    exists L', foldM swap1 (rev (swaps_up [] pre)) L = Ok L' /\ NoDup L' /\ incl L' cs /\ (cs <> [] -> L' <> [])).
  { induction pre as [|c pre IH] using rev_ind; intros post L E ND I1 I2 Ne.
    - exists L. cbn. auto.
    - rewrite <- app_assoc in E. cbn [app] in E. rewrite swaps_up_app, rev_app_distr. cbn [swaps_up app]. rewrite app_nil_r.
      assert (Nc : ~ In c pre) by (intros K; rewrite E in NDc; apply NoDup_remove_2 in NDc; apply NDc, in_or_app; auto).
      destruct (last_superset c pre) as [d|] eqn:EL; cbn [rev app foldM].
      + destruct (last_superset_spec _ _ _ EL) as (b1 & b2 & Eb & _). assert (Hd : In d pre) by (rewrite Eb; apply in_elt).
        destruct (swap1_perm L c d ND) as (L' & E1 & P1); [apply I1, in_elt|apply I1, in_or_app; auto|congruence|].
        rewrite E1. cbn [rbind].
        assert (Ip : incl pre L').
        { intros x Hx. assert (K : In x L) by (apply I1, in_or_app; auto). apply (Permutation_in x P1) in K as [<-|K]; [contradiction|exact K]. }
        apply (IH (c :: post)); [exact E| |exact Ip| |].
        * assert (K := Permutation_NoDup P1 ND). inversion K; assumption.
        * intros x Hx. apply I2. apply (Permutation_in x (Permutation_sym P1)). right; exact Hx.
        * intros _ ->. apply (Ip d Hd).
      + apply (IH (c :: post)); auto. intros x Hx. apply I1, in_or_app; auto. }
  apply (H cs []); auto using incl_refl. rewrite app_nil_r; reflexivity.
Qed.
