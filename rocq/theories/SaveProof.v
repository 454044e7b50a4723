(** Saving what was loaded. *)
From Coq Require Import Ascii.
From Verif Require Import Base BaseFacts NDArray NDArrayFacts Node Network NetSpec NetFacts NetInv NetOps NetOps2 NetTop Dynamic
  Xml IO IOText IOSpec IOProof IOMore ParseSpec IOParse Files FilesSpec FilesProof DocProof3 SaveSpec.

Lemma printable_weaker M M' w : printable_net M w -> (M' = true -> M = true) -> printable_net M' w.
Proof.
  intros [A B C] H. split; [exact A|intros E; apply B, H, E|]. intros v i n X. destruct (C v i n X) as (C1 & C2 & C3).
  split; [exact C1|]. split; [exact C2|]. intros E. apply C3, H, E.
Qed.

Lemma back_named x : x <> Some ""%string -> back x = x.
Proof. destruct x as [s|]; [|reflexivity]. destruct s; [|reflexivity]. intros N. destruct N. reflexivity. Qed.

Lemma back_not_empty x : back x <> Some ""%string.
Proof. destruct x as [s|]; [|discriminate]. destruct s; discriminate. Qed.

Lemma back_printable x : printable_or_none x -> printable_or_none (back x).
Proof. destruct x as [s|]; [|intros; exact I]. destruct s; [intros; exact I|intros H; exact H]. Qed.

Section Save.
Context {FT : FloatText}.

Lemma write_ok ignore w : consistent w -> fitting w -> printable_net (negb ignore) w -> write_tree ignore w = Ok (doc_of ignore w).
Proof.
  intros C F P. unfold write_tree. rewrite (leaf_ok _ _ (pn_name _ w P)). cbn [rbind].
  rewrite write_props_ok by (intros ->; apply (pn_meta _ w P); reflexivity). cbn [rbind].
  rewrite (mapM_total _ (fun p => [var_of ignore (deref (whp w) (snd p)); def_of (deref (whp w) (snd p))])).
  - cbn [rbind]. unfold doc_of, listed. rewrite flat_map_concat_map, map_map. reflexivity.
  - intros (v, i) X. cbn [snd]. assert (L : In (deref (whp w) i) (listed w)) by (unfold listed; apply in_map_iff; exists (v, i); auto).
    apply (listed_holds w _ C) in L. destruct L as (j & H). destruct (pn_node _ w P _ _ _ H) as (P1 & P2 & P3).
    apply write_node_ok.
    + apply (F _ _ _ H).
    + exact P1.
    + exact P2.
    + apply Forall_forall. intros u Hu. apply (co_parents w C _ _ _ u H) in Hu. destruct (co_ends w C _ _ Hu) as [Iu _].
      destruct (in_lookup w C u Iu) as (k & m & Hm). apply (pn_node _ w P _ _ _ Hm).
    + intros ->. apply P3. reflexivity.
Qed.

Lemma flat_map_named {A} (f g : node -> list A) l l' : map nname l' = map nname l ->
  (forall n n', In n l -> In n' l' -> nname n' = nname n -> f n' = g n) -> flat_map f l' = flat_map g l.
Proof.
  revert l'. induction l as [|n l IH]; intros [|n' l'] E H; try discriminate; [reflexivity|]. cbn [map flat_map] in *. injection E as E1 E2.
  rewrite (H n n' (or_introl eq_refl) (or_introl eq_refl) E1). rewrite (IH l' E2); [reflexivity|]. intros m m' Hm Hm'. apply H; right; assumption.
Qed.

Lemma counterpart meta w w' v i' n' : consistent w -> reloaded meta w w' -> holds w' v i' n' ->
  exists i n, holds w v i n /\ nkind n' = KDiscrete /\ nvalues n' = nvalues n /\ nporder n' = nporder n /\
     ncpd n' = TArr false (tarr (ncpd n)) /\ nvalid n' = true /\ nmeta n' = if meta then map back (nmeta n) else [].
Proof.
  intros C R H. assert (K : In v (dkeys (ggraph (wnet w)))) by (rewrite <- (rl_lookup _ _ _ R); apply dget_Some_key with (1 := proj1 H)).
  apply (Permutation_in _ (Permutation_sym (keys_perm w C))) in K. destruct (in_lookup w C v K) as (i & n & Hn).
  destruct (rl_node _ _ _ R v i n Hn) as (j & m & Hm & X). destruct (holds_same w' v i' n' j m H Hm) as [_ ->]. exists i, n. auto.
Qed.

Lemma doc_reloaded meta ign w w' : consistent w -> reloaded meta w w' -> named_net w -> float_tables w ->
  doc_of ign w' = doc_of (negb meta || ign) w.
Proof.
  intros C R (N1 & N2 & N3) F. unfold doc_of. rewrite (rl_name _ _ _ R), (back_named _ N1).
  assert (EP : forall l, ~ In (Some ""%string) l -> props_of ign (if meta then map back l else []) = props_of (negb meta || ign) l).
  { intros l Hl. destruct meta; cbn [negb orb]; [rewrite (map_back l Hl); reflexivity|]. unfold props_of. destruct ign; reflexivity. }
  rewrite (rl_meta _ _ _ R), (EP _ N2).
  rewrite (flat_map_named (fun n => [var_of ign n; def_of n]) (fun n => [var_of (negb meta || ign) n; def_of n]) (listed w) (listed w')); [reflexivity| |].
  - rewrite (listed_names w C), (listed_names w' (rl_consistent _ _ _ R)). apply (rl_graph _ _ _ R).
  - intros n n' Hn Hn' E. apply (listed_holds w n C) in Hn as (i & Hn). apply (listed_holds w' n' (rl_consistent _ _ _ R)) in Hn' as (i' & Hn').
    rewrite E in Hn'. destruct (counterpart meta w w' _ _ _ C R Hn') as (j & m & Hm & _ & E1 & E2 & E3 & _ & E4).
    destruct (holds_same w _ _ _ _ _ Hm Hn) as [_ ->]. unfold var_of, def_of, table_text. rewrite E, E1, E2, E3, E4, (EP _ (N3 _ _ _ Hn)).
    destruct (F _ _ _ Hn) as (a & ->). reflexivity.
Qed.

Lemma reloaded_printable meta M M' w w' : consistent w -> reloaded meta w w' -> printable_net M w -> (meta = true -> M = true) -> printable_net M' w'.
Proof.
  intros C R [P1 P2 P3] H. split.
  - rewrite (rl_name _ _ _ R). apply back_printable, P1.
  - intros _. rewrite (rl_meta _ _ _ R). destruct meta; [|constructor]. specialize (P2 (H eq_refl)). apply Forall_map. revert P2. apply Forall_impl. exact back_printable.
  - intros v i' n' Hn. destruct (counterpart meta w w' v i' n' C R Hn) as (i & n & Hm & _ & E1 & _ & _ & _ & E4). destruct (P3 v i n Hm) as (Q1 & Q2 & Q3).
    rewrite E1, E4. split; [exact Q1|]. split; [exact Q2|]. intros _. destruct meta; [|constructor]. specialize (Q3 (H eq_refl)).
    apply Forall_map. revert Q3. apply Forall_impl. exact back_printable.
Qed.

Lemma reloaded_filled meta w w' : consistent w -> reloaded meta w w' -> filled w -> filled w'.
Proof. intros C R F v i' n' Hn. destruct (counterpart meta w w' v i' n' C R Hn) as (i & n & Hm & _ & E1 & _). rewrite E1. exact (F v i n Hm). Qed.

Lemma reloaded_named meta w w' : consistent w -> reloaded meta w w' -> named_net w'.
Proof.
  assert (B : forall l : list (option string), ~ In (Some ""%string) (if meta then map back l else [])).
  { intros l H. destruct meta; [|destruct H]. apply in_map_iff in H as (x & E & _). exact (back_not_empty x E). }
  intros C R. split; [rewrite (rl_name _ _ _ R); apply back_not_empty|]. split; [rewrite (rl_meta _ _ _ R); apply B|].
  intros v i' n' Hn. destruct (counterpart meta w w' v i' n' C R Hn) as (i & n & _ & _ & _ & _ & _ & _ & E4). rewrite E4. apply B.
Qed.

Lemma reloaded_floats meta w w' : consistent w -> reloaded meta w w' -> float_tables w'.
Proof. intros C R v i' n' Hn. destruct (counterpart meta w w' v i' n' C R Hn) as (i & n & _ & _ & _ & _ & E & _). eauto. Qed.

(** The document of a reloaded network. *)
Theorem rewritten ign_w ign_r ign w w' : consistent w -> fitting w -> reloaded (negb (ign_w || ign_r)) w w' ->
  printable_net (negb ign_w) w -> named_net w -> float_tables w -> write_tree ign w' = write_tree (ign_w || ign_r || ign) w.
Proof.
  intros C F R P N FL.
  rewrite (write_ok ign w' (rl_consistent _ _ _ R) (rl_fitting _ _ _ R)).
  - rewrite (write_ok _ w C F).
    + rewrite (doc_reloaded _ ign w w' C R N FL), Bool.negb_involutive. reflexivity.
    + apply (printable_weaker (negb ign_w)); [exact P|]. destruct ign_w; [discriminate|reflexivity].
  - apply (reloaded_printable (negb (ign_w || ign_r)) (negb ign_w) _ w w' C R P). destruct ign_w; [discriminate|reflexivity].
Qed.

Theorem save_again ign_w ign_r w h : inv w -> sound_heap h -> printable_net (negb ign_w) w -> filled w -> named_net w -> float_tables w ->
  exists t h1 g', write_tree ign_w w = Ok t /\ parse_tree ign_r h (reread 0 t) = (h ++ h1, Ok g') /\
    forall ign, write_tree ign (mkW (h ++ h1) g') = write_tree (ign_w || ign_r || ign) w.
Proof.
  intros I SH P F N FL. destruct (round_trip ign_w ign_r w h I SH P F) as (t & h1 & g' & A & B & _ & R).
  exists t, h1, g'. split; [exact A|]. split; [exact B|]. intros ign. apply rewritten; [apply I|apply I|exact R|exact P|exact N|exact FL].
Qed.

(** From the second time on. *)
Theorem save_third ign_w ign_r w h : inv w -> sound_heap h -> printable_net (negb ign_w) w -> filled w ->
  exists t h1 g', write_tree ign_w w = Ok t /\ parse_tree ign_r h (reread 0 t) = (h ++ h1, Ok g') /\
    forall ign ign_r' h0, sound_heap h0 -> exists t' h2 g2, write_tree ign (mkW (h ++ h1) g') = Ok t' /\
      parse_tree ign_r' h0 (reread 0 t') = (h0 ++ h2, Ok g2) /\
      forall ign', write_tree ign' (mkW (h0 ++ h2) g2) = write_tree (ign || ign_r' || ign') (mkW (h ++ h1) g').
Proof.
  intros I SH P F. destruct (round_trip ign_w ign_r w h I SH P F) as (t & h1 & g' & A & B & I' & R).
  exists t, h1, g'. split; [exact A|]. split; [exact B|]. intros ign ign_r' h0 SH0.
  assert (C := iv_c w I). apply save_again; [exact I'|exact SH0| |exact (reloaded_filled _ _ _ C R F)|exact (reloaded_named _ _ _ C R)|exact (reloaded_floats _ _ _ C R)].
  apply (reloaded_printable (negb (ign_w || ign_r)) (negb ign_w) _ w _ C R P). destruct ign_w; [discriminate|reflexivity].
Qed.

(** ** Documents *)
Lemma preorder_trans : forall r e x, In e (preorder r) -> In x (preorder e) -> In x (preorder r).
Proof.
  fix IH 1. intros [t a y ks] e x He Hx. cbn [preorder] in He. destruct He as [<-|He]; [exact Hx|]. cbn [preorder]. right.
  induction ks as [|k ks IHk]; cbn [flat_map] in *; [destruct He|]. apply in_app_iff in He. apply in_app_iff.
  destruct He as [He|He]; [left; exact (IH k e x He Hx)|right; exact (IHk He)].
Qed.

Lemma preorder_self e : In e (preorder e).
Proof. destruct e. left. reflexivity. Qed.

Lemma preorder_kid e k : In k (xkids e) -> In k (preorder e).
Proof. destruct e as [t a y ks]. cbn [xkids preorder]. intros H. right. apply in_flat_map. exists k. split; [exact H|apply preorder_self]. Qed.

Lemma found_kid tag e k : In k (find_all tag e) -> In k (preorder e).
Proof. intros H. apply filter_In in H as [H _]. apply preorder_kid, H. Qed.

Lemma iter_in tag e k : In k (iter_tag tag e) -> In k (preorder e).
Proof. intros H. apply filter_In in H as [H _]. exact H. Qed.

Theorem parsed_ready ignore root w vs ds M : consistent w -> proper root -> read_from ignore root w vs ds ->
  printable_net M w /\ filled w /\ named_net w /\ float_tables w.
Proof.
  intros C [T V] R.
  assert (VD : forall x, In x vs -> exists e, In e (iter_tag "VARIABLE" root) /\ declares e x).
  { intros x Hx. pose proof (rf_vars _ _ _ _ _ R) as F. revert Hx. clear -F. induction F as [|e y es ys D F IH]; intros Hx; [destruct Hx|]. destruct Hx as [->|Hx].
    - exists e. split; [left; reflexivity|exact D].
    - destruct (IH Hx) as (e' & H1 & H2). exists e'. split; [right; exact H1|exact H2]. }
  assert (HD : forall v i n, holds w v i n -> exists x, In x vs /\ v = vd_name x /\ nvalues n = vd_values x /\ nmeta n = if ignore then [] else vd_props x).
  { intros v i n H. assert (K : In v (map vd_name vs)) by (rewrite <- (rf_lookup _ _ _ _ _ R); apply dget_Some_key with (1 := proj1 H)).
    apply in_map_iff in K as (x & <- & Hx). destruct (rf_node _ _ _ _ _ R x Hx) as (j & m & Hm & E1 & E2).
    destruct (holds_same w _ _ _ _ _ H Hm) as [_ ->]. exists x. auto. }
  assert (TX : forall e tag k, In e (preorder root) -> In k (find_all tag e) -> printable_or_none (xtext k) /\ xtext k <> Some ""%string).
  { intros e tag k He Hk. apply T. apply (preorder_trans root e); [exact He|apply (found_kid tag), Hk]. }
  assert (PR : forall l tag e, In e (preorder root) -> l = map xtext (find_all tag e) -> Forall printable_or_none l /\ ~ In (Some ""%string) l).
  { intros l tag e He ->. split.
    - apply Forall_map, Forall_forall. intros k Hk. apply (TX e tag k He Hk).
    - intros H. apply in_map_iff in H as (k & E & Hk). destruct (TX e tag k He Hk) as [_ X]. contradiction. }
  assert (XS : forall x, In x vs -> printable (vd_name x) /\ vd_name x <> ""%string /\ Forall printable (vd_values x) /\ vd_values x <> [] /\
     Forall (fun s => s <> ""%string) (vd_values x) /\ Forall printable_or_none (vd_props x) /\ ~ In (Some ""%string) (vd_props x)).
  { intros x Hx. destruct (VD x Hx) as (e & He & D1 & D2 & D3). assert (Ie := iter_in _ _ _ He).
    unfold first_text, find_child in D1. destruct (find_all "NAME" e) as [|k l] eqn:EF; [discriminate|]. injection D1 as D1.
    destruct (TX e "NAME"%string k Ie) as [X1 X2]; [rewrite EF; left; reflexivity|]. rewrite D1 in X1, X2.
    destruct (PR _ "OUTCOME"%string e Ie (eq_sym D2)) as [Y1 Y2]. destruct (PR _ "PROPERTY"%string e Ie (eq_sym D3)) as [Z1 Z2].
    split; [exact X1|]. split; [congruence|]. split; [apply Forall_forall; intros s Hs; rewrite Forall_forall in Y1; apply (Y1 (Some s)), in_map, Hs|].
    split; [intros E; apply (V e He); rewrite E in D2; destruct (find_all "OUTCOME" e); [reflexivity|discriminate]|].
    split; [apply Forall_forall; intros s Hs ->; apply Y2, in_map, Hs|]. split; assumption. }
  assert (BN : printable_or_none (bname (wnet w)) /\ bname (wnet w) <> Some ""%string).
  { destruct (rf_name _ _ _ _ _ R) as (k & Ek & ->). apply T. unfold find_desc in Ek. destruct (flat_map (iter_tag "NAME") (xkids root)) as [|k' l] eqn:EF; [discriminate|].
    injection Ek as ->. assert (H : In k (flat_map (iter_tag "NAME") (xkids root))) by (rewrite EF; left; reflexivity).
    apply in_flat_map in H as (e & He & Hk). apply (preorder_trans root e); [apply preorder_kid, He|apply (iter_in "NAME"), Hk]. }
  assert (BM : Forall printable_or_none (bmeta (wnet w)) /\ ~ In (Some ""%string) (bmeta (wnet w))).
  { rewrite (rf_meta _ _ _ _ _ R). destruct ignore; [split; [constructor|intros []]|].
    assert (H : forall k, In k (flat_map (find_all "PROPERTY") (find_all "NETWORK" root)) -> printable_or_none (xtext k) /\ xtext k <> Some ""%string).
    { intros k Hk. apply in_flat_map in Hk as (e & He & Hk). apply (TX e "PROPERTY"%string k); [apply (found_kid "NETWORK"), He|exact Hk]. }
    split; [apply Forall_map, Forall_forall; intros k Hk; apply H, Hk|]. intros X. apply in_map_iff in X as (k & E & Hk). destruct (H k Hk) as [_ Y]. contradiction. }
  split; [split; [apply BN|intros _; apply BM|]|split; [|split; [split; [apply BN|split; [apply BM|]]|exact (rf_float _ _ _ _ _ R)]]].
  - intros v i n H. destruct (HD v i n H) as (x & Hx & -> & E1 & E2). destruct (XS x Hx) as (A1 & A2 & A3 & A4 & A5 & A6 & A7).
    rewrite E1, E2. split; [exact A1|]. split; [exact A3|]. intros _. destruct ignore; [constructor|exact A6].
  - intros v i n H. destruct (HD v i n H) as (x & Hx & -> & E1 & E2). destruct (XS x Hx) as (A1 & A2 & A3 & A4 & A5 & A6 & A7).
    rewrite E1. auto.
  - intros v i n H. destruct (HD v i n H) as (x & Hx & -> & E1 & E2). destruct (XS x Hx) as (A1 & A2 & A3 & A4 & A5 & A6 & A7).
    rewrite E2. destruct ignore; [intros []|exact A7].
Qed.

Theorem load_save ignore h root h' g : sound_heap h -> orderly root -> proper root -> parse_tree ignore h root = (h', Ok g) ->
  forall ign_w ign_r h0, sound_heap h0 -> exists t h1 g1, write_tree ign_w (mkW h' g) = Ok t /\
    parse_tree ign_r h0 (reread 0 t) = (h0 ++ h1, Ok g1) /\ reloaded (negb (ign_w || ign_r)) (mkW h' g) (mkW (h0 ++ h1) g1) /\
    bname g1 = bname g /\ inv (mkW h' g) /\ inv (mkW (h0 ++ h1) g1) /\
    forall ign, write_tree ign (mkW (h0 ++ h1) g1) = write_tree (ign_w || ign_r || ign) (mkW h' g).
Proof.
  intros SH O PR P ign_w ign_r h0 SH0. destruct (parse_reads ignore h root h' g SH O P) as (rest & vs & ds & E & I & RF).
  destruct (parsed_ready ignore root _ vs ds (negb ign_w) (iv_c _ I) PR RF) as (PN & FI & NN & FL).
  destruct (round_trip ign_w ign_r _ h0 I SH0 PN FI) as (t & h1 & g1 & A & B & I' & R).
  exists t, h1, g1. split; [exact A|]. split; [exact B|]. split; [exact R|]. split; [|split; [exact I|split; [exact I'|]]].
  - pose proof (rl_name _ _ _ R) as X. cbn [wnet] in X. rewrite X. apply back_named, NN.
  - intros ign. apply rewritten; [apply I|apply I|exact R|exact PN|exact NN|exact FL].
Qed.

(** ** Files *)
Lemma put_same l c d : file_get l d = Some c -> file_put l c d = d.
Proof.
  induction d as [|[k c'] d IH]; cbn [file_get file_put]; [discriminate|]. destruct (loc_eq l k); intros E.
  - injection E as ->. reflexivity.
  - rewrite (IH E). reflexivity.
Qed.

Lemma write_same f p c : read_file f p = Ok c -> write_file f p c = (f, Ok tt).
Proof.
  unfold read_file, write_file. destruct (resolve f p) as [l|]; [|discriminate]. destruct (file_get l (ffiles f)) as [c'|] eqn:G; [|discriminate].
  destruct (is_dir f l); [discriminate|]. intros E. injection E as ->. rewrite (put_same l c _ G). destruct f. reflexivity.
Qed.

Lemma read_written f p c f' : write_file f p c = (f', Ok tt) -> read_file f' p = Ok c.
Proof.
  unfold read_file, write_file. destruct (resolve f p) as [l|] eqn:R; [|discriminate]. destruct (is_dir f l) eqn:D; [discriminate|]. intros E. injection E as <-.
  rewrite (resolve_same f (mkFs (fdirs f) _ (fcwd f)) p eq_refl eq_refl), R. cbn [ffiles]. rewrite file_get_put, loc_refl.
  change (is_dir (mkFs (fdirs f) (file_put l c (ffiles f)) (fcwd f)) l) with (is_dir f l). rewrite D. reflexivity.
Qed.

Lemma saved_file ign w p f f' : xmlbif_write ign w p f = (f', Ok tt) -> exists t, write_tree ign w = Ok t /\ read_file f' p = Ok (Doc t).
Proof. unfold xmlbif_write. destruct (write_tree ign w) as [t|]; [|discriminate]. intros E. exists t. split; [reflexivity|exact (read_written _ _ _ _ E)]. Qed.

Theorem file_again ign_w ign_r w h p f f' : inv w -> sound_heap h -> filled w -> named_net w -> float_tables w ->
  xmlbif_write ign_w w p f = (f', Ok tt) -> ign_r = false \/ ign_w = true ->
  exists h1 g', xmlbif_parse ign_r h p f' = (h ++ h1, Ok g') /\ xmlbif_write ign_w (mkW (h ++ h1) g') p f' = (f', Ok tt).
Proof.
  intros I SH F N FL W K. destruct (saved_file _ _ _ _ _ W) as (t & Wt & Rt).
  assert (P : printable_net (negb ign_w) w).
  { destruct (write_cases ign_w w I) as [[_ P]|[X _]]; [exact P|congruence]. }
  destruct (save_again ign_w ign_r w h I SH P F N FL) as (t' & h1 & g' & A & B & D). assert (t' = t) by congruence. subst t'.
  exists h1, g'. split; [unfold xmlbif_parse; rewrite Rt; exact B|]. unfold xmlbif_write. rewrite (D ign_w).
  assert (E : ign_w || ign_r || ign_w = ign_w) by (destruct ign_w, ign_r, K; try discriminate; reflexivity). rewrite E, Wt. apply write_same, Rt.
Qed.

(** ** Dynamic networks *)
Theorem dbn_again ign_w ign_r h d f path name l h0 filename :
  good_fs f -> directory f path l -> ~ In slash (list_ascii_of_string name) -> free_targets f l name ->
  inv (mkW h (db0 d)) -> printable_net (negb ign_w) (mkW h (db0 d)) -> filled (mkW h (db0 d)) -> named_net (mkW h (db0 d)) -> float_tables (mkW h (db0 d)) ->
  inv (mkW h (dtwo d)) -> printable_net (negb ign_w) (mkW h (dtwo d)) -> filled (mkW h (dtwo d)) -> named_net (mkW h (dtwo d)) -> float_tables (mkW h (dtwo d)) ->
  lawful d -> sound_heap h0 -> ign_r = false \/ ign_w = true ->
  exists f', dbn_write ign_w h d path name f = (f', Ok tt) /\
    (resolve f' filename = Some (l ++ [(name ++ ".conf")%string]) ->
     exists h1 d', dbn_parse ign_r h0 filename f' = (h0 ++ h1, Ok d') /\ dbn_write ign_w (h0 ++ h1) d' path name f' = (f', Ok tt)).
Proof.
  intros G D N FR I0 P0 F0 N0 L0 I2 P2 F2 N2 L2 LW SH K.
  destruct (dbn_round_trip ign_w h d f path name l G D N FR I0 P0 F0 I2 P2 F2 LW) as (f' & A1 & A2 & A3 & _ & _ & A6).
  exists f'. split; [exact A1|]. intros RS.
  assert (G' : good_fs f') by (apply (good_fs_same f f'); assumption).
  destruct (A6 f' filename ign_r h0 G' (conj eq_refl eq_refl) RS SH) as (h1 & d' & B1 & [R0 R2 RT]). exists h1, d'. split; [exact B1|].
  assert (E : ign_w || ign_r || ign_w = ign_w) by (destruct ign_w, ign_r, K; try discriminate; reflexivity).
  assert (W0 := rewritten ign_w ign_r ign_w _ _ (iv_c _ I0) (iv_f _ I0) R0 P0 N0 L0). rewrite E in W0.
  assert (W2 := rewritten ign_w ign_r ign_w _ _ (iv_c _ I2) (iv_f _ I2) R2 P2 N2 L2). rewrite E in W2.
  set (n0 := (name ++ "-b0.xbif")%string). set (n2 := (name ++ "-2tbn.xbif")%string). set (nc := (name ++ ".conf")%string).
  assert (C0 : clean n0) by (apply clean_name; cbn; auto). assert (C2 : clean n2) by (apply clean_name; cbn; auto).
  assert (CC : clean nc) by (apply clean_name; cbn; auto).
  assert (Q0 := directory_file f G path l n0 D C0). assert (Q2 := directory_file f G path l n2 D C2). assert (QC := directory_file f G path l nc D CC).
  assert (T0 := write_ok ign_w _ (iv_c _ I0) (iv_f _ I0) P0). assert (T2 := write_ok ign_w _ (iv_c _ I2) (iv_f _ I2) P2). rewrite T0 in W0. rewrite T2 in W2.
  set (t0 := doc_of ign_w (mkW h (db0 d))) in *. set (t2 := doc_of ign_w (mkW h (dtwo d))) in *.
  assert (RF : read_file f' (path ++ n0) = Ok (Doc t0) /\ read_file f' (path ++ n2) = Ok (Doc t2) /\ read_file f' (path ++ nc) = Ok (Conf n0 n2 (dtrans d))).
  { unfold dbn_write, xmlbif_write in A1. rewrite T0, T2 in A1. fold n0 n2 nc in A1.
    destruct (write_file f (path ++ n0) (Doc t0)) as [f1 [[]|e]] eqn:X0; [|discriminate].
    destruct (write_file f1 (path ++ n2) (Doc t2)) as [f2 [[]|e]] eqn:X2; [|discriminate].
    unfold write_file in X0, X2, A1. rewrite Q0 in X0. destruct (is_dir f (l ++ [n0])) eqn:D0; [discriminate|]. injection X0 as X0.
    rewrite (resolve_same f f1 _ (f_equal fdirs (eq_sym X0)) (f_equal fcwd (eq_sym X0))), Q2 in X2.
    destruct (is_dir f1 (l ++ [n2])) eqn:D2; [discriminate|]. injection X2 as X2.
    assert (Y1 : fdirs f2 = fdirs f) by (rewrite <- X2, <- X0; reflexivity). assert (Y2 : fcwd f2 = fcwd f) by (rewrite <- X2, <- X0; reflexivity).
    rewrite (resolve_same f f2 _ Y1 Y2), QC in A1. destruct (is_dir f2 (l ++ [nc])) eqn:DC; [discriminate|]. injection A1 as A1.
    rewrite <- X0 in D2. change (is_dir f (l ++ [n2]) = false) in D2. rewrite (is_dir_same f f2 _ Y1) in DC.
    assert (Z1 : fdirs f' = fdirs f) by exact A2. assert (Z2 : fcwd f' = fcwd f) by exact A3.
    assert (EF : ffiles f' = file_put (l ++ [nc]) (Conf n0 n2 (dtrans d)) (file_put (l ++ [n2]) (Doc t2) (file_put (l ++ [n0]) (Doc t0) (ffiles f)))).
    { rewrite <- A1, <- X2, <- X0. reflexivity. }
    unfold read_file. rewrite !(resolve_same f f' _ Z1 Z2), Q0, Q2, QC, !(is_dir_same f f' _ Z1), D0, D2, DC, EF, !file_get_put, !loc_refl.
    unfold nc, n2, n0. rewrite !loc_neq by discriminate. auto. }
  destruct RF as (RF0 & RF2 & RFC). unfold dbn_write, xmlbif_write. rewrite W0. fold n0 n2 nc. rewrite (write_same _ _ _ RF0), W2, (write_same _ _ _ RF2), RT.
  apply write_same, RFC.
Qed.
End Save.
