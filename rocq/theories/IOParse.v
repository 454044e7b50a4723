(** Reading any XMLBIF document. *)
From Verif Require Import Base BaseFacts NDArray NDArrayFacts Node Network NetSpec NetFacts NetInv NetOps NetOps2 NetTop
  Xml IO IOText IOSpec IOProof IOMore ParseSpec.

Section Parse.
Context {FT : FloatText}.

Lemma child_first tag e x : child_text tag e = Ok x <-> first_text tag e = Some x.
Proof. unfold child_text, first_text. destruct (find_child tag e); split; congruence. Qed.

Lemma mapM_text l : forall vs, mapM (fun k => string_text (xtext k)) l = Ok vs -> map xtext l = map Some vs.
Proof.
  induction l as [|k l IH]; intros vs H; cbn in H.
  - injection H as <-. reflexivity.
  - destruct (xtext k) as [s|] eqn:E; cbn in H; [|discriminate]. destruct (mapM _ l) as [r|] eqn:M; cbn in H; [|discriminate].
    injection H as <-. cbn. rewrite E, (IH r eq_refl). reflexivity.
Qed.

(** ** Variables *)
Variable ignore : bool.
Definition made (x : vardecl) : node :=
  let n := new_node KDiscrete (vd_name x) (vd_values x) in if ignore then n else with_meta n (vd_props x).

Lemma made_fresh x : made x = fresh nmeta (made x).
Proof. unfold made. destruct ignore; reflexivity. Qed.
Lemma made_name x : nname (made x) = vd_name x.
Proof. unfold made. destruct ignore; reflexivity. Qed.
Lemma made_values x : nvalues (made x) = vd_values x.
Proof. unfold made. destruct ignore; reflexivity. Qed.
Lemma made_meta x : nmeta (made x) = if ignore then [] else vd_props x.
Proof. unfold made. destruct ignore; reflexivity. Qed.

Lemma variable_read w e w' : parse_variable ignore w e = (w', Ok tt) -> exists x, declares e x /\
  add_node (with_heap w (whp w ++ [made x])) (length (whp w)) = (w', Ok tt).
Proof.
  unfold parse_variable. intros H. destruct (child_text "NAME" e) as [nm|] eqn:E1; cbn [rbind] in H; [|discriminate].
  destruct nm as [nm|]; cbn [string_text rbind] in H; [|discriminate]. destruct (mapM _ _) as [vs|] eqn:E2; cbn [rbind] in H; [|discriminate].
  exists (mkVar nm vs (map xtext (find_all "PROPERTY" e))). split.
  - repeat split; cbn; [apply child_first, E1|apply mapM_text, E2].
  - exact H.
Qed.

Lemma variables_read es : forall w w', inv w -> gedges (wnet w) = [] -> lookup (wnet w) = ggraph (wnet w) ->
  each_elem (parse_variable ignore) es w = (w', Ok tt) ->
  exists vs, Forall2 declares es vs /\
    let d := lookup (wnet w) ++ pairs (length (whp w)) (map made vs) in
    w' = mkW (whp w ++ map made vs) (mkNet d d [] (bname (wnet w)) (bmeta (wnet w))) /\ inv w'.
Proof.
  induction es as [|e es IH]; intros w w' I E L H.
  - cbn in H. injection H as <-. exists []. split; [constructor|]. cbn. rewrite !app_nil_r. destruct w as [h [lk g es nm mt]]. cbn in *. subst. auto.
  - cbn [each_elem] in H. destruct (parse_variable ignore w e) as [w2 [[]|]] eqn:PV; cbn [andthen] in H; [|discriminate].
    destruct (variable_read w e w2 PV) as (x & Dx & A).
    set (w1 := with_heap w (whp w ++ [made x])) in *.
    assert (I1 : inv w1) by (unfold w1; rewrite made_fresh; apply inv_fresh, I).
    assert (Hx : nth_error (whp w1) (length (whp w)) = Some (made x)).
    { cbn. rewrite nth_error_app2, Nat.sub_diag by lia. reflexivity. }
    assert (I2 : inv (fst (exec w1 (AddNode (length (whp w)))))).
    { apply inv_add_node; [exact I1|]. intros m Hm. rewrite Hx in Hm. injection Hm as <-. unfold made. destruct ignore; split; reflexivity. }
    cbn [exec] in I2. rewrite A in I2. cbn [fst] in I2. unfold add_node in A. rewrite Hx in A.
    destruct (dmem (nname (made x)) (lookup (wnet w1))) eqn:M; [discriminate|]. cbn [ret] in A. injection A as A.
    unfold graph_add_node in A. cbn [ggraph lookup set_lookup wnet w1 with_heap gedges bname bmeta] in A, M.
    rewrite <- L, M in A. apply dmem_nIn in M. rewrite dset_new in A by exact M.
    destruct (IH w2 w' I2) as (vs & F & EQ).
    + rewrite <- A. exact E.
    + rewrite <- A. reflexivity.
    + exact H.
    + exists (x :: vs). split; [constructor; assumption|]. rewrite <- A in EQ. cbn [with_net whp wnet lookup bname bmeta w1 with_heap] in EQ.
      rewrite app_length in EQ. cbn [length] in EQ. rewrite Nat.add_1_r, <- !app_assoc in EQ. cbn [app] in EQ. cbn [map].
      unfold pairs at 1 2. cbn [map length seq combine]. fold (pairs (S (length (whp w))) (map made vs)). exact EQ.
Qed.

(** ** Definitions *)
Lemma add_edge_keys w u v w' : add_edge w u v = (w', Ok tt) -> In u (dkeys (lookup (wnet w))) /\ lookup (wnet w') = lookup (wnet w).
Proof.
  unfold add_edge. destruct (_ && _); [|discriminate]. destruct (dget u (lookup (wnet w))) as [p|] eqn:D; [|discriminate].
  destruct (dget v (lookup (wnet w))) as [c|]; [|discriminate]. unfold on_heap. intros H. injection H as <- _. split; [exact (dget_Some_key _ _ _ D)|].
  cbn. unfold graph_add_edge, graph_add_node. cbn. repeat (destruct (dmem _ _); cbn); reflexivity.
Qed.

Lemma edges_read cur gs : forall w w', parse_edges cur gs w = (w', Ok tt) ->
  exists ps, gs = map Some ps /\ forall u, In u ps -> In u (dkeys (lookup (wnet w))).
Proof.
  induction gs as [|g gs IH]; intros w w' H; [exists []; split; [reflexivity|intros u []]|]. cbn in H.
  destruct g as [p|]; cbn in H; [|discriminate]. destruct (add_edge w p cur) as [w1 [[]|]] eqn:A; cbn in H; [|discriminate].
  destruct (add_edge_keys _ _ _ _ A) as [Ip L]. destruct (IH w1 w' H) as (ps & -> & F). exists (p :: ps). split; [reflexivity|].
  intros u [<-|Hu]; [exact Ip|]. rewrite <- L. apply F, Hu.
Qed.

Lemma table_read e l : parse_table e = Ok l -> exists s, first_text "TABLE" e = Some (Some s) /\ map fread (split_at space (strip s)) = map Some l.
Proof.
  unfold parse_table. destruct (child_text "TABLE" e) as [[s|]|] eqn:E; cbn [rbind]; try discriminate. intros H. exists s.
  split; [apply child_first, E|]. revert l H. generalize (split_at space (strip s)). intros ts. induction ts as [|t ts IH]; intros l H; cbn in H.
  - injection H as <-. reflexivity.
  - destruct (fread t) as [q|] eqn:F; cbn in H; [|discriminate]. destruct (mapM _ ts) as [r|]; cbn in H; [|discriminate].
    injection H as <-. cbn. rewrite F, (IH r eq_refl). reflexivity.
Qed.

Lemma definition_read e w w' d sz n i : inv w -> lookup (wnet w) = d -> (forall u, In u (dkeys d) -> size w u = sz u) ->
  first_text "FOR" e = Some (Some (nname n)) -> dget (nname n) d = Some i -> nth_error (whp w) i = Some (fresh nmeta n) ->
  NoDup (map xtext (find_all "GIVEN" e)) -> parse_definition w e = (w', Ok tt) ->
  exists gs l a, defines e (mkDef (nname n) gs l) /\ nvalues n <> [] /\
    reshape_F (length (nvalues n) :: map sz (rev gs)) l = Ok a /\ (forall u, In u gs -> In u (dkeys d)) /\
    w' = mkW (list_set i (staged d nmeta n (rev gs) (TArr false a) true) (whp w))
             (mkNet d (ggraph (wnet w)) (gedges (wnet w) ++ map (fun p => (p, nname n)) (rev gs)) (bname (wnet w)) (bmeta (wnet w))) /\
    inv w' /\ (forall u, In u (dkeys d) -> size w' u = sz u).
Proof.
  intros I L S FT' D H ND R. unfold parse_definition in R. pose proof FT' as FT2. apply child_first in FT'. rewrite FT' in R.
  cbn [rbind string_text] in R. rewrite L, D in R.
  destruct (parse_edges _ _ w) as [w1 [[]|]] eqn:PE; cbn [andthen] in R; [|discriminate].
  destruct (edges_read _ _ _ _ PE) as (ps & Ep & Fp). rewrite L in Fp.
  assert (EG : map xtext (find_all "GIVEN" e) = map Some (rev ps)).
  { rewrite map_rev, <- Ep, rev_involutive. reflexivity. }
  assert (NDp : NoDup ps).
  { rewrite EG in ND. apply NoDup_map_inv in ND. apply NoDup_rev in ND. rewrite rev_involutive in ND. exact ND. }
  rewrite <- (stage_nil d sz) in H.
  destruct (edges_ok nmeta n d sz ps [] w i I L S D H NDp Fp) as (R1 & I1 & S1). rewrite Ep in PE. rewrite PE in R1.
  injection R1 as R1. cbn [app] in R1, I1, S1. rewrite <- R1 in I1, S1.
  set (st := stage d sz nmeta n ps) in *.
  assert (H1 : nth_error (whp w1) i = Some st).
  { rewrite R1. cbn. rewrite nth_error_list_set, H. destruct (Nat.eq_dec i i); [reflexivity|contradiction]. }
  assert (D1 : lookup (wnet w1) = d) by (rewrite R1; reflexivity).
  assert (Hn : holds w1 (nname n) i st) by (split; [rewrite D1; exact D|exact H1]).
  unfold parse_cpd, hget in R. rewrite H1 in R. cbn [rbind] in R.
  destruct (parse_table e) as [l|] eqn:PT; cbn [rbind] in R; [|discriminate].
  assert (E : exists pv, mapM (parent_values (whp w1) st) (nporder st) = Ok pv /\ map (@length string) pv = map sz ps).
  { assert (Q : forall q, In q ps -> exists vs, parent_values (whp w1) st q = Ok vs /\ length vs = sz q).
    { intros q Hq. destruct (parent_values_resolved (whp w1) (size w1) st q) as (vs & E & Lv).
      - apply (inv_resolved w1 (nname n) i); [exact I1|exact Hn].
      - exact Hq.
      - exists vs. split; [exact E|]. rewrite Lv. apply S1, Fp, Hq. }
    change (nporder st) with ps. revert Q. clear. generalize ps. intros l. induction l as [|q l IH]; intros Q; [exists []; auto|].
    destruct (Q q (or_introl eq_refl)) as (vs & E1 & L1).
    destruct IH as (pv & E2 & L2); [intros; apply Q; right; assumption|].
    exists (vs :: pv). cbn [mapM]. rewrite E1. cbn [rbind]. rewrite E2. cbn. split; congruence. }
  destruct E as (pv & EV & Lv). rewrite EV in R. cbn [rbind] in R. rewrite Lv in R. change (nvalues st) with (nvalues n) in R.
  destruct (reshape_F _ l) as [a|] eqn:RF; [|discriminate].
  assert (RA : real_array a).
  { unfold reshape_F in RF. destruct (Nat.eqb _ _); [|discriminate]. injection RF as <-. apply wfa_tabulate. }
  assert (SA : shape a = length (nvalues n) :: map sz ps).
  { unfold reshape_F in RF. destruct (Nat.eqb _ _); [|discriminate]. injection RF as <-. reflexivity. }
  assert (I2 := inv_set_cpd w1 i false a I1 RA). cbn [exec] in I2. rewrite R in I2. cbn [fst] in I2.
  unfold on_node in R. rewrite H1 in R. unfold set_cpd, store_table in R. cbn [nkind st stage staged] in R.
  change (ncpd (staged _ _ _ _ _ _)) with (ncpd st) in R. fold st in R.
  destruct (list_eq_dec Nat.eq_dec (tshape (ncpd st)) (shape a)) as [X|X]; [|discriminate]. cbn [ret] in R. injection R as R.
  assert (NV : nvalues n <> []).
  { intros Z. rewrite SA in X. cbn in X. unfold own in X. rewrite Z in X. apply (f_equal (@length nat)) in X. cbn in X. lia. }
  assert (EQ : list_set i (with_cpd st (TArr false a) true) (whp w1) = list_set i (staged d nmeta n ps (TArr false a) true) (whp w)).
  { rewrite R1. cbn [whp]. rewrite list_set_twice. reflexivity. }
  exists (rev ps), l, a. rewrite rev_involutive. split; [|split; [exact NV|split; [exact RF|split; [|split; [|split; [exact I2|]]]]]].
  - split; [exact FT2|]. split; [exact EG|]. apply table_read, PT.
  - intros u Hu. apply in_rev in Hu. apply Fp, Hu.
  - rewrite <- R. unfold with_heap. rewrite EQ, R1. reflexivity.
  - intros u Hu. etransitivity; [|apply S1, Hu]. apply size_similar; [rewrite <- R; reflexivity|]. rewrite <- R. cbn [with_heap whp].
    apply (similar_set _ _ _ _ H1). reflexivity.
Qed.

(** ** All definitions *)
Section Defs.
Variables (h : heap) (ns : list node) (nm : option string) (mt : list (option string)) (sz : string -> nat).
Let d : dict oid := pairs (length h) ns.
Hypothesis NDn : NoDup (map nname ns).
Hypothesis FR : forall n, In n ns -> fresh nmeta n = n.

Definition built (done : list (definition * ndarray)) (n : node) : node :=
  match find (fun x => String.eqb (df_for (fst x)) (nname n)) done with
  | Some (x, a) => staged d nmeta n (rev (df_given x)) (TArr false a) true
  | None => n
  end.
Definition def_links (x : definition * ndarray) : list (string * string) := map (fun p => (p, df_for (fst x))) (rev (df_given (fst x))).
Definition at_stage (done : list (definition * ndarray)) : world :=
  mkW (h ++ map (built done) ns) (mkNet d d (flat_map def_links done) nm mt).
Definition fits_in (x : definition * ndarray) : Prop :=
  exists n, In n ns /\ df_for (fst x) = nname n /\ nvalues n <> [] /\ (forall u, In u (df_given (fst x)) -> In u (dkeys d)) /\
    reshape_F (length (nvalues n) :: map sz (rev (df_given (fst x)))) (df_table (fst x)) = Ok (snd x).

Lemma find_app {A} (P : A -> bool) l1 l2 : find P (l1 ++ l2) = match find P l1 with Some x => Some x | None => find P l2 end.
Proof. induction l1 as [|x l1 IH]; [reflexivity|]. cbn. destruct (P x); [reflexivity|exact IH]. Qed.

Lemma built_none done n : ~ In (nname n) (map (fun x => df_for (fst x)) done) -> built done n = n.
Proof.
  intros N. unfold built. destruct (find _ done) as [(x, a)|] eqn:F; [|reflexivity]. apply find_some in F. destruct F as [Ix E].
  apply String.eqb_eq in E. exfalso. apply N. apply in_map_iff. exists (x, a). auto.
Qed.

Lemma built_other done x n : df_for (fst x) <> nname n -> built (done ++ [x]) n = built done n.
Proof.
  intros N. unfold built. rewrite find_app. destruct (find _ done); [reflexivity|]. cbn. rewrite eqb_neq_s by exact N. reflexivity.
Qed.

Lemma definitions_read es : forall done w', inv (at_stage done) -> (forall u, In u (dkeys d) -> size (at_stage done) u = sz u) ->
  NoDup (map (first_text "FOR") es) -> (forall x, In x done -> ~ In (Some (Some (df_for (fst x)))) (map (first_text "FOR") es)) ->
  (forall e, In e es -> NoDup (map xtext (find_all "GIVEN" e))) ->
  each_elem parse_definition es (at_stage done) = (w', Ok tt) ->
  exists ds, Forall2 (fun e x => defines e (fst x)) es ds /\ Forall fits_in ds /\ w' = at_stage (done ++ ds) /\ inv w' /\
    (forall u, In u (dkeys d) -> size w' u = sz u).
Proof.
  induction es as [|e es IH]; intros done w' I S ND NF NG H.
  - cbn in H. injection H as <-. exists []. rewrite app_nil_r. split; [constructor|]. split; [constructor|]. auto.
  - cbn [each_elem] in H. destruct (parse_definition (at_stage done) e) as [w1 [[]|]] eqn:P; cbn [andthen] in H; [|discriminate].
    assert (Z : exists n l1 l2, ns = l1 ++ n :: l2 /\ first_text "FOR" e = Some (Some (nname n))).
    { pose proof P as Q. unfold parse_definition in Q. destruct (child_text "FOR" e) as [[cur|]|] eqn:C; cbn [rbind string_text] in Q; try discriminate.
      destruct (dget cur (lookup (wnet (at_stage done)))) as [i|] eqn:D; [|discriminate]. cbn [at_stage wnet lookup] in D.
      apply dget_Some_key in D. unfold d in D. rewrite dkeys_pairs in D. apply in_map_iff in D. destruct D as (n & <- & Hn).
      apply in_split in Hn. destruct Hn as (l1 & l2 & E). exists n, l1, l2. split; [exact E|]. apply child_first, C. }
    destruct Z as (n & l1 & l2 & EN & FE). set (i := length h + length l1).
    assert (Hn : In n ns) by (rewrite EN; apply in_or_app; right; left; reflexivity).
    assert (Dn : dget (nname n) d = Some i) by (apply (dget_pairs ns _ l1 n l2); [exact EN|exact NDn]).
    assert (NB : ~ In (nname n) (map (fun x => df_for (fst x)) done)).
    { intros X. apply in_map_iff in X. destruct X as (x & E & Hx). apply (NF x Hx). cbn. left. rewrite FE, E. reflexivity. }
    assert (Ln : length (h ++ map (built done) l1) = i) by (rewrite app_length, map_length; reflexivity).
    assert (Hi : nth_error (whp (at_stage done)) i = Some (fresh nmeta n)).
    { cbn [at_stage whp]. rewrite EN. rewrite map_app, app_assoc, nth_error_app2 by lia. rewrite Ln, Nat.sub_diag. cbn.
      rewrite built_none by exact NB. rewrite FR by exact Hn. reflexivity. }
    destruct (definition_read e (at_stage done) w1 d sz n i I eq_refl S FE Dn Hi (NG e (or_introl eq_refl)) P)
      as (gs & l & a & DF & NV & RS & IG & W & I1 & S1).
    set (x := (mkDef (nname n) gs l, a)).
    assert (W1 : w1 = at_stage (done ++ [x])).
    { rewrite W. unfold at_stage. cbn [whp wnet ggraph gedges bname bmeta]. f_equal.
      - rewrite EN. rewrite !map_app, !app_assoc. cbn [map]. rewrite <- Ln, list_set_app.
        rewrite EN in NDn. rewrite map_app in NDn. cbn [map] in NDn. apply NoDup_remove_2 in NDn.
        assert (O1 : map (built (done ++ [x])) l1 = map (built done) l1).
        { apply map_ext_in. intros m Hm. apply built_other. cbn. intros X. apply NDn, in_or_app. left. rewrite X. apply in_map, Hm. }
        assert (O2 : map (built (done ++ [x])) l2 = map (built done) l2).
        { apply map_ext_in. intros m Hm. apply built_other. cbn. intros X. apply NDn, in_or_app. right. rewrite X. apply in_map, Hm. }
        rewrite O1, O2. do 2 f_equal. unfold built. rewrite find_app.
        destruct (find _ done) as [y|] eqn:F; [|cbn; rewrite eqb_refl_s; reflexivity].
        exfalso. apply find_some in F. destruct F as [Iy E]. apply String.eqb_eq in E. apply NB, in_map_iff. exists y. auto.
      - f_equal. rewrite flat_map_app. cbn. rewrite app_nil_r. reflexivity. }
    rewrite W1 in H, I1, S1.
    destruct (IH (done ++ [x]) w' I1 S1) as (ds & F & G & E & I2 & S2).
    + cbn in ND. apply NoDup_cons_iff in ND. apply ND.
    + intros y Hy. apply in_app_or in Hy. cbn in ND. apply NoDup_cons_iff in ND. destruct Hy as [Hy|[<-|[]]].
      * intros X. apply (NF y Hy). right. exact X.
      * cbn. rewrite <- FE. apply ND.
    + intros e' He. apply NG. right. exact He.
    + exact H.
    + exists (x :: ds). split; [constructor; assumption|]. split; [|split; [rewrite E, <- app_assoc; reflexivity|split; assumption]].
      constructor; [|exact G]. exists n. cbn. auto.
Qed.

End Defs.

(** ** The whole document *)
Lemma reshape_layout sh l a : reshape_F sh l = Ok a -> length l = prodn sh /\ wfa a /\ shape a = sh /\
  forall ix, inb sh ix -> nth_error l (ravel (rev sh) (rev ix)) = Some (aget a ix).
Proof.
  unfold reshape_F. destruct (Nat.eqb (length l) (prodn sh)) eqn:E; [|discriminate]. intros H. injection H as <-. apply Nat.eqb_eq in E.
  split; [exact E|]. split; [apply wfa_tabulate|]. split; [reflexivity|]. intros ix B. rewrite aget_tabulate by exact B.
  apply nth_error_nth'. rewrite E, <- (prodn_rev sh). apply ravel_lt. apply -> inb_rev. exact B.
Qed.

Theorem parse_reads h root h' g : sound_heap h -> orderly root -> parse_tree ignore h root = (h', Ok g) ->
  exists rest vs ds, h' = h ++ rest /\ inv (mkW h' g) /\ read_from ignore root (mkW h' g) vs ds.
Proof.
  intros SH [OF OG] P. unfold parse_tree in P. destruct (parse_head ignore root) as [g0|] eqn:PH; [|discriminate].
  assert (G0 : exists k, find_desc "NAME" root = Some k /\ g0 = mkNet [] [] [] (xtext k)
      (if ignore then [] else map xtext (flat_map (find_all "PROPERTY") (find_all "NETWORK" root)))).
  { unfold parse_head in PH. destruct (find_desc "NAME" root) as [k|]; [|discriminate]. injection PH as <-. exists k. auto. }
  destruct G0 as (k & FK & EG). set (mt := if ignore then _ else _) in EG.
  destruct (each_elem (parse_variable ignore) _ (mkW h g0)) as [w1 [[]|]] eqn:PV; cbn [andthen] in P; [|discriminate].
  destruct (each_elem parse_definition _ w1) as [w2 [[]|]] eqn:PD; [|discriminate]. injection P as <- <-.
  rewrite EG in PV.
  destruct (variables_read _ _ _ (inv_empty h (xtext k) mt SH) eq_refl eq_refl PV) as (vs & FV & W1 & I1).
  cbn [wnet whp lookup app bname bmeta] in W1. set (ns := map made vs) in *. set (d := pairs (length h) ns) in *.
  assert (NN : map nname ns = map vd_name vs) by (unfold ns; rewrite map_map; apply map_ext, made_name).
  assert (ND : NoDup (map nname ns)).
  { pose proof (co_lookup _ (iv_c _ I1)) as X. rewrite W1 in X. cbn [wnet lookup] in X. unfold d in X. rewrite dkeys_pairs in X. exact X. }
  assert (FR : forall n, In n ns -> fresh nmeta n = n).
  { intros n Hn. apply in_map_iff in Hn. destruct Hn as (x & <- & _). symmetry. apply made_fresh. }
  assert (E1 : w1 = at_stage h ns (xtext k) mt []).
  { assert (MB : map (built h ns []) ns = ns) by (transitivity (map (fun x => x) ns); [reflexivity|apply map_id]).
    rewrite W1. unfold at_stage. rewrite MB. reflexivity. }
  set (sz := size w1).
  rewrite E1 in PD. destruct (definitions_read h ns (xtext k) mt sz ND FR (iter_tag "DEFINITION" root) [] w2) as (ds & FD & FI & W2 & I2 & S2).
  - rewrite <- E1. exact I1.
  - intros u _. rewrite <- E1. reflexivity.
  - exact OF.
  - intros x [].
  - exact OG.
  - exact PD.
  - cbn [app] in W2. rewrite <- (dkeys_pairs (length h) ns) in NN. fold d in NN, S2.
    assert (DD : lookup (wnet w2) = d) by (rewrite W2; reflexivity).
    assert (HN : forall n, In n ns -> exists i, holds w2 (nname n) i (built h ns ds n)).
    { intros n Hn. apply in_split in Hn. destruct Hn as (l1 & l2 & E). exists (length h + length l1). split.
      - rewrite DD. apply (dget_pairs ns _ l1 n l2 E ND).
      - rewrite W2. cbn [at_stage whp]. rewrite nth_error_app2 by lia. replace (length h + length l1 - length h) with (length l1) by lia.
        rewrite E at 2. rewrite map_app, nth_error_app2 by (rewrite map_length; lia). rewrite map_length, Nat.sub_diag. reflexivity. }
    assert (NF : NoDup (map (fun x => df_for (fst x)) ds)).
    { clear - FD OF. induction FD as [|e x es ds (A & _) F IH]; [constructor|]. cbn in *. apply NoDup_cons_iff in OF. destruct OF as [N OF].
      constructor; [|apply IH, OF]. intros X. apply N. apply in_map_iff in X. destruct X as (y & E & Hy).
      clear - F A E Hy. induction F as [|e' y' es ds (B & _) F IH]; [destruct Hy|]. destruct Hy as [->|Hy].
      - left. rewrite A, B, E. reflexivity.
      - right. apply IH, Hy. }
    assert (FB : forall x a n, In (x, a) ds -> df_for x = nname n -> built h ns ds n = staged d nmeta n (rev (df_given x)) (TArr false a) true).
    { intros x a n Hx E. unfold built. destruct (find _ ds) as [(y, b)|] eqn:F.
      - apply find_some in F. destruct F as [Hy Ey]. apply String.eqb_eq in Ey. cbn in Ey.
        assert (X : (y, b) = (x, a)).
        { clear - NF Hx Hy E Ey. induction ds as [|z ds IH]; [destruct Hx|]. cbn in NF. apply NoDup_cons_iff in NF. destruct NF as [N NF].
          destruct Hx as [->|Hx], Hy as [Hy|Hy].
          - symmetry. exact Hy.
          - exfalso. apply N. cbn. rewrite E, <- Ey. apply (in_map (fun x => df_for (fst x)) _ _ Hy).
          - exfalso. apply N. subst z. cbn. rewrite Ey, <- E. apply (in_map (fun x => df_for (fst x)) _ _ Hx).
          - apply IH; assumption. }
        injection X as -> ->. reflexivity.
      - exfalso. apply (find_none _ _ F) in Hx. cbn in Hx. rewrite E, eqb_refl_s in Hx. discriminate. }
    exists (map (built h ns ds) ns), vs, (map fst ds). split; [rewrite W2; reflexivity|].
    assert (EW : mkW (whp w2) (wnet w2) = w2) by (destruct w2; reflexivity). rewrite EW. split; [exact I2|]. constructor.
    + exact FV.
    + clear - FD. induction FD; cbn; constructor; auto.
    + exists k. split; [exact FK|rewrite W2; reflexivity].
    + rewrite W2. reflexivity.
    + rewrite <- NN, W2. reflexivity.
    + rewrite <- NN, W2. reflexivity.
    + intros x Hx. assert (Hm : In (made x) ns) by (apply in_map, Hx). destruct (HN _ Hm) as (i & Hi). rewrite made_name in Hi.
      exists i, (built h ns ds (made x)). split; [exact Hi|]. rewrite <- made_values, <- made_meta. unfold built.
      destruct (find _ ds) as [(y, b)|]; split; reflexivity.
    + intros x Hx. apply in_map_iff in Hx. destruct Hx as ((y, a) & E & Hy). cbn in E. subst y. rewrite Forall_forall in FI.
      destruct (FI _ Hy) as (n & Hn & EF & NV & IG & RS). cbn [fst snd] in EF, IG, RS. destruct (HN _ Hn) as (i & Hi).
      rewrite (FB x a n Hy EF) in Hi. rewrite EF. exists i, (staged d nmeta n (rev (df_given x)) (TArr false a) true).
      split; [exact Hi|]. split; [exact NV|]. split; [reflexivity|]. split; [reflexivity|]. unfold laid_out.
      destruct (reshape_layout _ _ _ RS) as (RL & _ & _ & RX). cbn [nvalues staged ncpd tarr].
      assert (SZ : map (size w2) (df_given x) = map sz (df_given x)) by (apply map_ext_in; intros u Hu; apply S2, IG, Hu). rewrite SZ.
      assert (RV : rev (length (nvalues n) :: map sz (rev (df_given x))) = map sz (df_given x) ++ [length (nvalues n)]).
      { cbn [rev]. rewrite map_rev, rev_involutive. reflexivity. }
      split.
      * rewrite RL, <- RV, prodn_rev. reflexivity.
      * intros ks q Hk Hq. assert (LK : length ks = length (map sz (df_given x))) by (exact (inb_length _ _ Hk)).
        rewrite row_major_ravel by (rewrite !app_length; cbn; lia). cbn [Nat.mul Nat.add]. rewrite <- RV.
        replace (ks ++ [q]) with (rev (q :: rev ks)) by (cbn [rev]; rewrite rev_involutive; reflexivity).
        apply RX. constructor; [exact Hq|]. rewrite map_rev. apply inb_rev. rewrite !rev_involutive. exact Hk.
    + intros u v. rewrite W2. unfold edge, at_stage. cbn [wnet gedges]. rewrite in_flat_map. split.
      * intros ((x, a) & Hx & E). apply in_map_iff in E. destruct E as (p & E & Hp). cbn in E, Hp. injection E as <- <-. exists x.
        split; [apply (in_map fst _ _ Hx)|]. split; [reflexivity|]. apply in_rev, Hp.
      * intros (x & Hx & <- & Hu). apply in_map_iff in Hx. destruct Hx as ((y, a) & E & Hy). cbn in E. subst y. exists (x, a).
        split; [exact Hy|]. apply in_map_iff. exists u. split; [reflexivity|]. cbn. apply -> in_rev. exact Hu.
    + intros v i n H NV. assert (IV : In v (map nname ns)).
      { destruct H as [H _]. rewrite DD in H. apply dget_Some_key in H. unfold d in H. rewrite dkeys_pairs in H. exact H. }
      apply in_map_iff in IV. destruct IV as (m & <- & Hm). destruct (HN m Hm) as (j & [Dj Hj]). destruct H as [Di Hi].
      assert (EQ : n = built h ns ds m) by congruence. rewrite map_map in NV. rewrite (built_none h ns ds m NV) in EQ. subst n.
      rewrite <- (FR m Hm) at 1 2 3. split; [reflexivity|]. split; [reflexivity|].
      assert (PO : nporder m = []) by (rewrite <- (FR m Hm); reflexivity).
      unfold right_shape. rewrite PO. rewrite <- (FR m Hm). cbn. rewrite app_nil_r. reflexivity.
    + intros v i n H. assert (IV : In v (map nname ns)).
      { destruct H as [H _]. rewrite DD in H. apply dget_Some_key in H. unfold d in H. rewrite dkeys_pairs in H. exact H. }
      apply in_map_iff in IV. destruct IV as (m & <- & Hm). destruct (HN m Hm) as (j & [Dj Hj]). destruct H as [Di Hi].
      assert (EQ : n = built h ns ds m) by congruence. rewrite EQ. unfold built. destruct (find _ ds) as [(y, b)|].
      * exists b. reflexivity.
      * rewrite <- (FR m Hm). eexists. reflexivity.
Qed.

End Parse.

(** ** What written documents say *)
Section Written.
Context {FT : FloatText}.

Lemma nodup_some {A B} (f : A -> B) l : (forall x y, f x = f y -> x = y) -> NoDup l -> NoDup (map f l).
Proof.
  intros I ND. induction ND as [|x l N ND IH]; [constructor|]. cbn. constructor; [|exact IH]. intros X. apply in_map_iff in X.
  destruct X as (y & E & Hy). apply I in E. subst y. contradiction.
Qed.

Lemma written_orderly ign w : inv w -> filled w -> orderly (reread 0 (doc_of ign w)).
Proof.
  intros I F. pose proof (iv_c w I) as C. constructor; rewrite iter_defs.
  - rewrite map_map.
    replace (map (fun x => first_text "FOR" (def' x)) (listed w)) with (map (fun v => Some (Some v)) (map nname (listed w))).
    + apply nodup_some; [intros x y E; congruence|]. rewrite listed_names by exact C. apply C.
    + rewrite map_map. apply map_ext_in. intros n Hn. symmetry. apply child_first, for_def'.
      apply (listed_holds w n C) in Hn. destruct Hn as (i & H). apply (F _ _ _ H).
  - intros e He. apply in_map_iff in He. destruct He as (n & <- & Hn). apply (listed_holds w n C) in Hn. destruct Hn as (i & H).
    assert (G := givens_def' n). rewrite <- (rev_involutive (map xtext _)), G.
    + apply NoDup_rev, nodup_some; [intros x y E; congruence|]. apply (co_order w C _ _ _ H).
    + apply Forall_forall. intros u Hu. apply (co_parents w C _ _ _ u H) in Hu. destruct (co_ends w C _ _ Hu) as [Iu _].
      destruct (in_lookup w C u Iu) as (k & m & Hm). apply (F _ _ _ Hm).
Qed.

Lemma holds_same w v i n i' n' : holds w v i n -> holds w v i' n' -> i = i' /\ n = n'.
Proof. intros [D H] [D' H']. assert (i = i') by congruence. subst. split; congruence. Qed.

Theorem written_says ign w : inv w -> printable_net (negb ign) w -> filled w ->
  exists t vs ds, write_tree ign w = Ok t /\ orderly (reread 0 t) /\
    Forall2 declares (iter_tag "VARIABLE" (reread 0 t)) vs /\ Forall2 defines (iter_tag "DEFINITION" (reread 0 t)) ds /\
    map vd_name vs = dkeys (ggraph (wnet w)) /\ map df_for ds = dkeys (ggraph (wnet w)) /\
    (forall x, In x vs -> exists i n, holds w (vd_name x) i n /\ vd_values x = nvalues n /\
       vd_props x = if ign then [] else map back (nmeta n)) /\
    (forall x, In x ds -> exists i n, holds w (df_for x) i n /\ df_given x = rev (nporder n) /\ laid_out w n x).
Proof.
  intros I P F. pose proof (iv_c w I) as C.
  destruct (round_trip ign false w [] I ltac:(intros [|] ? X; discriminate) P F) as (t & h1 & g' & T & R & I' & RL).
  assert (ED : t = doc_of ign w) by (rewrite (write_tree_ok ign w I P) in T; congruence).
  assert (O : orderly (reread 0 t)) by (rewrite ED; apply written_orderly; assumption).
  destruct (parse_reads false [] (reread 0 t) _ _ ltac:(intros [|] ? X; discriminate) O R) as (_ & vs & ds & _ & _ & RF).
  set (w' := mkW ([] ++ h1) g') in *. rewrite orb_false_r in RL.
  assert (SZ : forall u, In u (dkeys (lookup (wnet w))) -> size w' u = size w u).
  { intros u Hu. destruct (in_lookup w C u Hu) as (i & n & H). destruct (rl_node _ _ _ RL u i n H) as (i' & n' & H' & _ & V & _).
    rewrite (size_get w u i n H), (size_get w' u i' n' H'), V. reflexivity. }
  exists t, vs, ds. split; [exact T|]. split; [exact O|]. split; [apply RF|]. split; [apply RF|].
  split; [rewrite <- (rf_graph _ _ _ _ _ RF); apply RL|]. split; [|split].
  - pose proof (rf_defs _ _ _ _ _ RF) as D. rewrite ED, iter_defs in D. rewrite <- (listed_names w C).
    assert (FN : forall n, In n (listed w) -> nname n <> ""%string).
    { intros n Hn. apply (listed_holds w n C) in Hn. destruct Hn as (i & H). apply (F _ _ _ H). }
    revert ds D RF FN. generalize (listed w). clear. intros l ds D _ FN.
    remember (map def' l) as es. revert l Heqes FN. induction D as [|e x es ds (A & _) D IH]; intros l E FN.
    + destruct l; [reflexivity|discriminate].
    + destruct l as [|n l]; [discriminate|]. cbn [map] in E. injection E as -> ->. cbn. f_equal.
      * assert (X : first_text "FOR" (def' n) = Some (Some (nname n))) by (apply child_first, for_def', FN; left; reflexivity). rewrite X in A. injection A as ->. reflexivity.
      * apply IH; [reflexivity|]. intros m Hm. apply FN. right. exact Hm.
  - intros x Hx. destruct (rf_node _ _ _ _ _ RF x Hx) as (i' & n' & H' & V & M).
    assert (Iv : In (vd_name x) (dkeys (lookup (wnet w)))).
    { apply (Permutation_in _ (Permutation_sym (keys_perm w C))). rewrite <- (rl_graph _ _ _ RL), (rf_graph _ _ _ _ _ RF). apply in_map, Hx. }
    destruct (in_lookup w C _ Iv) as (i & n & H). exists i, n. split; [exact H|].
    destruct (rl_node _ _ _ RL _ i n H) as (i2 & n2 & H2 & _ & V2 & _ & _ & _ & M2). destruct (holds_same _ _ _ _ _ _ H' H2) as [<- <-].
    split; [congruence|]. rewrite <- M, M2. destruct ign; reflexivity.
  - intros x Hx. destruct (rf_table _ _ _ _ _ RF x Hx) as (i' & n' & H' & _ & O' & _ & LO).
    assert (Iv : In (df_for x) (dkeys (lookup (wnet w)))).
    { apply (Permutation_in _ (Permutation_sym (keys_perm w C))). rewrite <- (rl_graph _ _ _ RL), (rf_graph _ _ _ _ _ RF), <- (rf_lookup _ _ _ _ _ RF).
      exact (dget_Some_key _ _ _ (proj1 H')). }
    destruct (in_lookup w C _ Iv) as (i & n & H). exists i, n. split; [exact H|].
    destruct (rl_node _ _ _ RL _ i n H) as (i2 & n2 & H2 & _ & V2 & O2 & T2 & _). destruct (holds_same _ _ _ _ _ _ H' H2) as [<- <-].
    assert (EG : df_given x = rev (nporder n)) by (rewrite <- O2, O', rev_involutive; reflexivity).
    split; [exact EG|]. unfold laid_out in *. rewrite V2, T2 in LO.
    assert (ES : map (size w') (df_given x) = map (size w) (df_given x)).
    { apply map_ext_in. intros u Hu. apply SZ. rewrite EG in Hu. apply in_rev in Hu. apply (co_parents w C _ _ _ u H) in Hu. apply (co_ends w C _ _ Hu). }
    rewrite ES in LO. exact LO.
Qed.

End Written.
