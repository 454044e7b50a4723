(** The tree that create_jointree builds is a junction tree. *)
From Coq Require Import Relations.
From Verif Require Import Base BaseFacts NDArray Factor FactorFacts Exact Spec SpecFacts Order OrderSpec OrderProof
  JoinTree HuginPure Hugin JTProof JTProof2 JTBuild JTBuild2 TreeSpec JTConnect JTBuild3 JTTop.

Lemma rt_mono {A} (R S : A -> A -> Prop) : (forall x y, R x y -> S x y) -> forall x y, clos_refl_trans A R x y -> clos_refl_trans A S x y.
Proof. intros H x y C. induction C; [apply rt_step, H; assumption|apply rt_refl|eapply rt_trans; eassumption]. Qed.

Section Shape.
Variable cv : string -> list string.

Record tree_shape (nodes : list string) (adj : string -> string -> Prop) : Prop := {
  sh_sym : forall k k', adj k k' -> adj k' k;
  sh_irr : forall k, ~ adj k k;
  sh_in : forall k k', adj k k' -> In k nodes /\ In k' nodes;
  sh_joined : joined nodes adj;
  sh_acyclic : acyclic nodes adj;
  sh_running : forall v k k', In k nodes -> In k' nodes -> In v (cv k) -> In v (cv k') ->
       clos_refl_trans string (fun x y => adj x y /\ In v (cv x) /\ In v (cv y)) k k'
}.

Lemma shape_leaf nodes adj x y adj' : tree_shape nodes adj -> ~ In x nodes -> In y nodes ->
  (forall k k', adj' k k' <-> adj k k' \/ (k = x /\ k' = y) \/ (k = y /\ k' = x)) ->
  (forall v k, In k nodes -> In v (cv x) -> In v (cv k) -> In v (cv y)) ->
  tree_shape (x :: nodes) adj'.
Proof.
  intros [S I N J A R] Nx Hy E Hv.
  assert (M : forall k k', adj k k' -> adj' k k') by (intros; apply E; auto).
  assert (XY : adj' x y) by (apply E; auto). assert (YX : adj' y x) by (apply E; auto).
  constructor.
  - intros k k'. rewrite !E. intros [H|[H|H]]; [left; apply S, H|tauto|tauto].
  - intros k. rewrite E. intros [H|[[-> H]|[-> H]]]; [exact (I k H)| |]; subst; contradiction.
  - intros k k'. rewrite E. intros [H|[[-> ->]|[-> ->]]]; [apply N in H as [H1 H2]|..]; split; cbn; auto.
  - assert (J' : forall k k', In k nodes -> In k' nodes -> clos_refl_trans string adj' k k').
    { intros. eapply rt_mono; [exact M|]. apply J; assumption. }
    intros k k' [<-|Hk] [<-|Hk'].
    + apply rt_refl.
    + eapply rt_trans; [apply rt_step, XY|]. apply J'; assumption.
    + eapply rt_trans; [|apply rt_step, YX]. apply J'; assumption.
    + apply J'; assumption.
  - intros T TN TI. destruct (in_dec string_dec x T) as [Hx|Hx].
    + exists x. split; [exact Hx|]. intros q q' _ _. rewrite !E.
      assert (K : forall q0, adj x q0 -> False) by (intros q0 K; apply N in K; tauto).
      intros [H|[[_ ->]|[H _]]]; [destruct (K _ H)| |subst; contradiction].
      intros [H|[[_ ->]|[H _]]]; [destruct (K _ H)|reflexivity|subst; contradiction].
    + destruct (A T TN) as (k & Hk & U).
      { intros k Hk. destruct (TI k Hk) as [<-|H]; [contradiction|exact H]. }
      exists k. split; [exact Hk|]. intros q q' Hq Hq'. rewrite !E. intros H H'. apply U; try assumption.
      * destruct H as [H|[[-> _]|[_ ->]]]; [exact H|contradiction|contradiction].
      * destruct H' as [H'|[[-> _]|[_ ->]]]; [exact H'|contradiction|contradiction].
  - intros v.
    assert (R' : forall k k', In k nodes -> In k' nodes -> In v (cv k) -> In v (cv k') ->
       clos_refl_trans string (fun x y => adj' x y /\ In v (cv x) /\ In v (cv y)) k k').
    { intros k k' H1 H2 H3 H4. eapply rt_mono; [|apply (R v k k' H1 H2 H3 H4)]. cbv beta. intros p q (H5 & H6 & H7). auto. }
    intros k k' [<-|Hk] [<-|Hk'] V1 V2.
    + apply rt_refl.
    + assert (Vy : In v (cv y)) by (apply (Hv v k'); assumption).
      eapply rt_trans; [apply rt_step; split; [exact XY|auto]|]. apply R'; assumption.
    + assert (Vy : In v (cv y)) by (apply (Hv v k); assumption).
      eapply rt_trans; [|apply rt_step; split; [exact YX|auto]]. apply R'; assumption.
    + apply R'; assumption.
Qed.

Lemma shape_one x : tree_shape [x] (fun _ _ => False).
Proof.
  constructor; try tauto.
  - intros k k' [<-|[]] [<-|[]]. apply rt_refl.
  - intros T TN TI. destruct T as [|k T]; [congruence|]. exists k. split; [left; reflexivity|]. tauto.
  - intros v k k' [<-|[]] [<-|[]] _ _. apply rt_refl.
Qed.

Lemma shape_ext nodes nodes' adj adj' : (forall k, In k nodes <-> In k nodes') -> (forall k k', adj k k' <-> adj' k k') ->
  tree_shape nodes adj -> tree_shape nodes' adj'.
Proof.
  intros EN EA [S I N J A R].
  assert (M : forall k k', adj k k' -> adj' k k') by (intros; apply EA; assumption).
  constructor.
  - intros k k'. rewrite <- !EA. apply S.
  - intros k. rewrite <- EA. apply I.
  - intros k k'. rewrite <- EA, <- !EN. apply N.
  - intros k k' Hk Hk'. eapply rt_mono; [exact M|]. apply J; apply EN; assumption.
  - intros T TN TI. destruct (A T TN) as (k & Hk & U); [intros k Hk; apply EN, TI, Hk|].
    exists k. split; [exact Hk|]. intros q q' Hq Hq'. rewrite <- !EA. apply U; assumption.
  - intros v k k' H1 H2 H3 H4. apply EN in H1, H2. eapply rt_mono; [|apply (R v k k' H1 H2 H3 H4)]. cbv beta. intros p q (H5 & H6 & H7). auto.
Qed.

Lemma build_shape L : L <> [] -> rip L -> NoDup (map key_of L) -> (forall c, In c L -> NoDup c) ->
  (forall c, In c L -> cv (key_of c) = c) ->
  (forall k, In k (dkeys (tadj (build_tree L))) <-> In k (map key_of L)) /\
  tree_shape (map key_of L) (fun k k' => In k' (neighbours (tadj (build_tree L)) k)).
Proof.
  induction L as [|c post IH]; [congruence|]. intros _ RI ND NC HC.
  assert (HCc : cv (key_of c) = c) by (apply HC; left; reflexivity).
  destruct post as [|c1 post'] eqn:EP.
  - assert (E0 : jprop c [] = []) by (unfold jprop; clear; induction c; cbn; auto).
    cbn [build_tree]. rewrite E0. cbn. split; [tauto|].
    apply (shape_ext [key_of c] _ (fun _ _ => False)); [tauto| |apply shape_one].
    intros k k'. unfold neighbours. cbn. destruct (String.eqb k (key_of c)); cbn; tauto.
  - rewrite <- EP in *. assert (Np : post <> []) by (rewrite EP; discriminate). clear c1 post' EP.
    destruct IH as [G4 SH].
    + exact Np. + apply rip_tail in RI; exact RI. + cbn in ND; inversion ND; assumption.
    + intros; apply NC; right; assumption. + intros; apply HC; right; assumption.
    + destruct (RI [] c post eq_refl Np) as [(d0 & Hd0 & Id0) (v0 & e0 & Hv0 & He0 & Hv0e)].
      cbn [build_tree]. set (t0 := build_tree post) in *. set (x := key_of c) in *.
      assert (Nx : ~ In x (map key_of post)) by (cbn in ND; inversion ND; assumption).
      assert (NE : jprop c post <> []).
      { intros E. assert (K : In v0 (jprop c post)) by (apply jprop_In; eauto). rewrite E in K. exact K. }
      assert (FD : exists d, find (fun d => subset (jprop c post) d) post = Some d).
      { destruct (find (fun d => subset (jprop c post) d) post) as [d|] eqn:EF; [eauto|].
        exfalso. assert (K := find_none _ _ EF d0 Hd0). cbn in K. apply not_true_iff_false in K. apply K.
        apply subset_spec. intros v Hv. apply jprop_In in Hv as (Hv & e & He & Hve). apply (Id0 v e); assumption. }
      destruct FD as (d & EF). rewrite EF. destruct (find_some _ _ EF) as [Hd Sd]. apply subset_spec in Sd. clear EF.
      destruct (jprop c post) as [|s0 s'] eqn:EJ; [congruence|]. rewrite <- EJ in *. clear s0 s' EJ.
      set (y := key_of d). assert (Hy : In y (map key_of post)) by (apply in_map, Hd).
      assert (Nyx : x <> y) by (intros E; apply Nx; rewrite E; exact Hy).
      assert (HCd : cv y = d) by (apply HC; right; exact Hd).
      assert (Ka : dkeys (ensure x (tadj t0)) = dkeys (tadj t0) ++ [x]) by (apply dkeys_ensure; rewrite G4; exact Nx).
      assert (Nbx : neighbours (tadj t0) x = []).
      { unfold neighbours. destruct (dget x (tadj t0)) as [l|] eqn:EG; [|reflexivity].
        exfalso. apply dget_Some_key in EG. apply G4 in EG. contradiction. }
      assert (Hxk : In x (dkeys (ensure x (tadj t0)))) by (rewrite Ka; apply in_or_app; right; left; reflexivity).
      assert (Hyk : In y (dkeys (ensure x (tadj t0)))) by (rewrite Ka; apply in_or_app; left; apply G4, Hy).
      assert (NB : forall w, neighbours (add_uedge x y (ensure x (tadj t0))) w =
        if String.eqb w y then neighbours (tadj t0) y ++ [x] else if String.eqb w x then [y] else neighbours (tadj t0) w).
      { intros w. rewrite add_uedge_eq; try assumption.
        - rewrite !neighbours_ensure, Nbx. reflexivity.
        - rewrite neighbours_ensure, Nbx. tauto.
        - rewrite neighbours_ensure. intros K. apply (sh_in _ _ SH) in K. tauto. }
      cbn [add_sep add_clique tnodes tadj tedges tvalid]. split.
      * intros k. rewrite add_uedge_keys by assumption. rewrite Ka, in_app_iff, G4. cbn. tauto.
      * apply (shape_leaf _ _ x y _ SH Nx Hy).
        -- intros k k'. rewrite NB. destruct (String.eqb_spec k y) as [->|N1].
           ++ rewrite in_app_iff. cbn. intuition congruence.
           ++ destruct (String.eqb_spec k x) as [->|N2].
              ** rewrite Nbx. cbn. intuition congruence.
              ** intuition congruence.
        -- intros v k Hk V1 V2. rewrite HCd. apply Sd, jprop_In. rewrite HCc in V1. split; [exact V1|].
           apply in_map_iff in Hk as (e & <- & He). exists e. split; [exact He|]. rewrite HC in V2 by (right; exact He). exact V2.
Qed.
End Shape.

Lemma tree_vars_cvo t k : tree_vars t k = cvo t k.
Proof. unfold tree_vars, cvo, vars_of. rewrite (dget_map_v cvars). destruct (dget k (tnodes t)); reflexivity. Qed.

(** Perfect orders of connected networks. *)
Lemma perfect_one_piece b o : wf_bn b -> wf_graph b -> edges_match b -> bnodes b <> [] -> Permutation (bnames b) o -> decodable (bnames b) ->
  perfect_order b o -> one_component b -> one_piece b o.
Proof.
  intros WB WG EM NE PO DC PF OC cs L E1 E2.
  destruct (clusters_kept b WB WG EM o PO) as (cs' & L' & E1' & E2' & C & K). assert (cs' = cs) by congruence. subst cs'. assert (L' = L) by congruence. subst L'.
  assert (ND := o_nodup b WG o PO).
  destruct (prune_ok (interacts b) o cs C ND PF) as (L' & E2'' & P).
  { apply connected_linkedup.
    - apply interacts_sym. - intros u [N _]; congruence. - exact ND. - exact PF. - apply connected_of; assumption. - apply interacts_dec. }
  assert (L' = L) by congruence. subst L'.
  destruct (build_facts b o PO DC NE cs L C P) as (NC0 & NDK & LN & CVO & BK).
  destruct (build_shape (cvo (build_tree L)) L LN (proj1 P) NDK (fun c Hc => proj1 (NC0 c Hc)) CVO) as (_ & SH).
  intros k k' Hk Hk'. apply (sh_joined _ _ _ SH); apply build_keys; assumption.
Qed.

(** A created tree in one piece. *)
Lemma joined_suits {SO : SetOrder} b o order t : wf_bn b -> wf_graph b -> edges_match b -> bnodes b <> [] -> Permutation (bnames b) o -> decodable (bnames b) ->
  order_or_default b order = Ok o -> create_jointree b order = Ok t -> joined (tree_keys t) (tree_adj t) -> suits b o.
Proof.
  intros WB WG EM NE PO DC EO EC J. constructor; try assumption. intros cs L E1 E2.
  unfold create_jointree in EC. rewrite EO in EC. cbn [rbind] in EC. rewrite E1 in EC. cbn [rbind] in EC. rewrite E2 in EC. cbn [rbind] in EC.
  apply skel_assign_factors in EC. intros k k' Hk Hk'. unfold tree_keys in Hk, Hk', J. unfold tree_adj in *.
  rewrite <- (skel_keys _ _ EC) in Hk, Hk'. rewrite <- (skel_adj _ _ EC). apply J; assumption.
Qed.

Lemma perfect_suits b o : wf_bn b -> wf_graph b -> edges_match b -> bnodes b <> [] -> Permutation (bnames b) o -> perfect_order b o ->
  one_component b -> decodable (bnames b) -> suits b o.
Proof. intros. constructor; try assumption. apply perfect_one_piece; assumption. Qed.

Lemma create_junction {SO : SetOrder} b o order : suits b o -> nonneg_bn b -> order_or_default b order = Ok o ->
  exists t, create_jointree b order = Ok t /\ junction_tree b (tree_keys t) (tree_adj t) (tree_vars t).
Proof.
  intros [WB WG EM NE PO OP DC] NN EO.
  destruct (clusters_ok b WB WG EM o PO DC NE OP) as (cs & L & E1 & E2 & C & P).
  destruct (build_jt_ok b WB o PO DC NE cs L C P) as (r & J).
  destruct (loaded_all b WB (build_tree L) r (svL L) NN J) as (t & E & S & V & LD).
  - rewrite <- clear_build. apply trivial_clear.
  - rewrite <- clear_build. apply load_clear.
  - exists t. split; [unfold create_jointree; rewrite EO; cbn [rbind]; rewrite E1; cbn [rbind]; rewrite E2; exact E|].
    assert (Jt : jt_ok b t r (svL L)) by (eapply jt_ok_same; [reflexivity|symmetry; exact S|exact J]).
    destruct (build_facts b o PO DC NE cs L C P) as (NC0 & NDK & LN & CVO & BK).
    assert (NC : forall c, In c L -> NoDup c) by (intros c Hc; apply NC0, Hc).
    assert (RI : rip L) by apply P.
    destruct (build_shape (cvo (build_tree L)) L LN RI NDK NC CVO) as (K & SH).
    assert (TK : forall k, In k (tree_keys t) <-> In k (map key_of L)).
    { intros k. unfold tree_keys. rewrite (skel_keys _ _ S). apply BK. }
    assert (TA : tadj t = tadj (build_tree L)) by (apply skel_adj, S).
    assert (SH' : tree_shape (cvo (build_tree L)) (tree_keys t) (tree_adj t)).
    { eapply shape_ext; [| |exact SH]; [intros k; rewrite TK; tauto|]. intros k k'. unfold tree_adj. rewrite TA. tauto. }
    assert (TV : forall k, tree_vars t k = cvo (build_tree L) k) by (intros k; rewrite tree_vars_cvo, (cvo_skel _ _ S); reflexivity).
    destruct SH' as [A1 A2 A3 A4 A5 A6]. constructor; try assumption.
    + apply (jo_nodup _ _ _ _ Jt).
    + intros n Hn. destruct (jo_fam _ _ _ _ Jt (family n) (in_map _ _ _ Hn)) as (k & Ek). unfold home in Ek.
      destruct (find _ (vars_of t)) as [[k' c]|] eqn:EF; [|discriminate]. cbn in Ek. inversion Ek; subst k'.
      apply find_some in EF as [F1 F2]. cbn [snd] in F2. apply subset_spec in F2. exists k. split.
      * unfold tree_keys. rewrite <- vars_keys. apply in_map_iff. exists (k, c). auto.
      * rewrite tree_vars_cvo. unfold cvo. rewrite (In_dget k c); [exact F2| |exact F1]. rewrite vars_keys. apply Jt.
    + intros k v _ Hv. rewrite tree_vars_cvo in Hv. apply (jo_U _ _ _ _ Jt k), Hv.
    + intros v _ k k' Hk Hk' V1 V2. rewrite TV in V1, V2.
      eapply rt_mono; [|apply (A6 v k k' Hk Hk' V1 V2)]. cbv beta. intros p q. rewrite !TV. tauto.
Qed.
