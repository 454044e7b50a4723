(** Writing a network and reading it back. *)
From Coq Require Import Ascii.
From Verif Require Import Base BaseFacts NDArray NDArrayFacts Node Network NetSpec NetFacts NetInv NetOps NetTop Xml IO IOText IOSpec.

Lemma printable_legal s : printable s <-> legal_text s = true.
Proof.
  rewrite legal_text_spec. unfold printable. split; intros F; (eapply Forall_impl; [|exact F]); intros a; unfold legal_char; cbv zeta;
    rewrite !orb_true_iff, Nat.leb_le, !Nat.eqb_eq; tauto.
Qed.

Section Round.
Context {FT : FloatText}.

Definition lf (tag : string) (x : option string) : xml := El tag [] x [].

Lemma leaf_ok tag x : printable_or_none x -> leaf tag x = Ok (lf tag x).
Proof. destruct x as [s|]; [|reflexivity]. cbn. intros P. apply printable_legal in P. rewrite P. reflexivity. Qed.

Lemma leaf_err tag x : ~ printable_or_none x -> leaf tag x = Err ValueError.
Proof.
  destruct x as [s|]; cbn; [|intros []; exact I]. intros P. destruct (legal_text s) eqn:E; [|reflexivity].
  destruct P. apply printable_legal, E.
Qed.

Lemma leaves_ok tag l : Forall printable_or_none l -> mapM (leaf tag) l = Ok (map (lf tag) l).
Proof. intros F. apply mapM_total. intros x Hx. rewrite Forall_forall in F. apply leaf_ok, F, Hx. Qed.

Lemma some_leaves_ok tag l : Forall printable l -> mapM (fun v => leaf tag (Some v)) l = Ok (map (fun v => lf tag (Some v)) l).
Proof. intros F. apply mapM_total. intros x Hx. rewrite Forall_forall in F. apply (leaf_ok tag (Some x)), F, Hx. Qed.

Lemma fprint_solid int q : solid (fprint int q).
Proof. split; [apply fprint_filled|apply fprint_plain]. Qed.

Definition table_text (n : node) : string :=
  join_with " " (map (fprint (int_table (ncpd n))) (ravel_F (tarr (ncpd n)))).

Lemma table_solid n : Forall solid (map (fprint (int_table (ncpd n))) (ravel_F (tarr (ncpd n)))).
Proof. apply Forall_forall. intros x Hx. apply in_map_iff in Hx. destruct Hx as (q & <- & _). apply fprint_solid. Qed.

Lemma table_printable n : printable (table_text n).
Proof. apply printable_legal, legal_join, table_solid. Qed.

Definition props_of (ignore : bool) (l : list (option string)) : list xml := if ignore then [] else map (lf "PROPERTY") l.

Lemma write_props_ok ignore l : (ignore = false -> Forall printable_or_none l) -> write_props ignore l = Ok (props_of ignore l).
Proof. intros P. unfold write_props, props_of. destruct ignore; [reflexivity|]. apply leaves_ok, P, eq_refl. Qed.

Definition var_of (ignore : bool) (n : node) : xml :=
  El "VARIABLE" [("TYPE", "nature")] None
     (lf "NAME" (Some (nname n)) :: map (fun v => lf "OUTCOME" (Some v)) (nvalues n) ++ props_of ignore (nmeta n)).
Definition def_of (n : node) : xml :=
  El "DEFINITION" [] None
     (lf "FOR" (Some (nname n)) :: map (fun p => lf "GIVEN" (Some p)) (rev (nporder n)) ++ [lf "TABLE" (Some (table_text n))]).

Lemma write_node_ok ignore n : nkind n = KDiscrete -> printable (nname n) -> Forall printable (nvalues n) ->
  Forall printable (nporder n) -> (ignore = false -> Forall printable_or_none (nmeta n)) ->
  write_node ignore n = Ok [var_of ignore n; def_of n].
Proof.
  intros K N V P M. unfold write_node, values_attr. rewrite K.
  rewrite (leaf_ok "NAME" (Some (nname n)) N). cbn [rbind]. rewrite (some_leaves_ok "OUTCOME" _ V). cbn [rbind].
  rewrite (write_props_ok ignore _ M). cbn [rbind]. rewrite (leaf_ok "FOR" (Some (nname n)) N). cbn [rbind].
  rewrite (some_leaves_ok "GIVEN") by (apply Forall_rev, P). cbn [rbind].
  fold (table_text n). rewrite (leaf_ok "TABLE" (Some (table_text n)) (table_printable n)). reflexivity.
Qed.

(** The nodes in graph order. *)
Definition listed (w : world) : list node := map (fun p => deref (whp w) (snd p)) (ggraph (wnet w)).

Definition doc_of (ignore : bool) (w : world) : xml :=
  El "BIF" [("VERSION", "0.3")] None [El "NETWORK" [] None
    (lf "NAME" (bname (wnet w)) :: props_of ignore (bmeta (wnet w)) ++ flat_map (fun n => [var_of ignore n; def_of n]) (listed w))].

Lemma listed_holds w n : consistent w -> In n (listed w) <-> exists i, holds w (nname n) i n.
Proof.
  intros C. unfold listed. rewrite in_map_iff. split.
  - intros ((v & i) & E & X). cbn in E. apply In_dget in X; [|apply C]. apply (co_same w C) in X.
    destruct (co_named w C v i X) as (m & Hm & <-). unfold deref in E. rewrite (nth_error_nth _ _ _ Hm) in E. subst m.
    exists i. split; assumption.
  - intros (i & D & Hn). exists (nname n, i). cbn. split; [unfold deref; apply nth_error_nth, Hn|].
    apply dget_In. apply (co_same w C), D.
Qed.

Lemma listed_names w : consistent w -> map nname (listed w) = dkeys (ggraph (wnet w)).
Proof.
  intros C. unfold listed, dkeys. rewrite map_map. apply map_ext_in. intros (v, i) X. cbn.
  apply In_dget in X; [|apply C]. apply (co_same w C) in X. destruct (co_named w C v i X) as (m & Hm & <-).
  unfold deref. rewrite (nth_error_nth _ _ _ Hm). reflexivity.
Qed.

Lemma write_tree_ok ignore w : inv w -> printable_net (negb ignore) w -> write_tree ignore w = Ok (doc_of ignore w).
Proof.
  intros I P. pose proof (iv_c w I) as C. unfold write_tree. rewrite (leaf_ok _ _ (pn_name _ w P)). cbn [rbind].
  rewrite write_props_ok by (intros ->; apply (pn_meta _ w P); reflexivity). cbn [rbind].
  rewrite (mapM_total _ (fun p => [var_of ignore (deref (whp w) (snd p)); def_of (deref (whp w) (snd p))])).
  - cbn [rbind]. unfold doc_of, listed. rewrite flat_map_concat_map, map_map. reflexivity.
  - intros (v, i) X. cbn [snd]. assert (L : In (deref (whp w) i) (listed w)) by (unfold listed; apply in_map_iff; exists (v, i); auto).
    apply (listed_holds w _ C) in L. destruct L as (j & H). destruct (pn_node _ w P _ _ _ H) as (P1 & P2 & P3).
    apply write_node_ok.
    + apply (inv_discrete w I _ _ _ H).
    + exact P1.
    + exact P2.
    + apply Forall_forall. intros u Hu. apply (co_parents w C _ _ _ u H) in Hu. destruct (co_ends w C _ _ Hu) as [Iu _].
      destruct (in_lookup w C u Iu) as (k & m & Hm). apply (pn_node _ w P _ _ _ Hm).
    + intros ->. apply P3. reflexivity.
Qed.

(** Writing fails only for text that XML cannot hold. *)
Lemma mapM_err {A B} (f : A -> res B) l e : mapM f l = Err e -> exists x, In x l /\ f x = Err e.
Proof.
  induction l as [|x l IH]; cbn; [discriminate|]. destruct (f x) as [y|e'] eqn:E; cbn [rbind].
  - destruct (mapM f l) as [ys|e'']; cbn; [discriminate|]. intros X. destruct (IH X) as (z & Hz & Ez). exists z. auto.
  - intros X. injection X as ->. exists x. auto.
Qed.

Lemma leaf_cases tag x : leaf tag x = Ok (lf tag x) /\ printable_or_none x \/ leaf tag x = Err ValueError /\ ~ printable_or_none x.
Proof.
  destruct x as [s|]; [|left; split; [reflexivity|exact I]]. cbn. destruct (legal_text s) eqn:E.
  - left. split; [reflexivity|]. apply printable_legal, E.
  - right. split; [reflexivity|]. intros P. apply printable_legal in P. congruence.
Qed.

Lemma leaves_cases tag l : (exists ys, mapM (leaf tag) l = Ok ys) /\ Forall printable_or_none l \/
  mapM (leaf tag) l = Err ValueError /\ ~ Forall printable_or_none l.
Proof.
  induction l as [|x l IH]; [left; split; [eexists; reflexivity|constructor]|]. cbn [mapM].
  destruct (leaf_cases tag x) as [[-> P]|[-> P]]; cbn [rbind].
  - destruct IH as [[(ys & ->) F]|[-> F]]; cbn [rbind].
    + left. split; [eexists; reflexivity|]. constructor; assumption.
    + right. split; [reflexivity|]. intros X. apply Forall_cons_iff in X. tauto.
  - right. split; [reflexivity|]. intros X. apply Forall_cons_iff in X. tauto.
Qed.

Lemma some_leaves_cases tag l : (exists ys, mapM (fun v => leaf tag (Some v)) l = Ok ys) /\ Forall printable l \/
  mapM (fun v => leaf tag (Some v)) l = Err ValueError /\ ~ Forall printable l.
Proof.
  induction l as [|x l IH]; [left; split; [eexists; reflexivity|constructor]|]. cbn [mapM].
  destruct (leaf_cases tag (Some x)) as [[-> P]|[-> P]]; cbn [rbind]; cbn in P.
  - destruct IH as [[(ys & ->) F]|[-> F]]; cbn [rbind].
    + left. split; [eexists; reflexivity|]. constructor; assumption.
    + right. split; [reflexivity|]. intros X. apply Forall_cons_iff in X. tauto.
  - right. split; [reflexivity|]. intros X. apply Forall_cons_iff in X. tauto.
Qed.

Lemma props_cases ignore l : (exists ys, write_props ignore l = Ok ys) /\ (ignore = false -> Forall printable_or_none l) \/
  write_props ignore l = Err ValueError /\ ignore = false /\ ~ Forall printable_or_none l.
Proof.
  unfold write_props. destruct ignore; [left; split; [eexists; reflexivity|discriminate]|].
  destruct (leaves_cases "PROPERTY" l) as [[(ys & ->) F]|[-> F]]; [left|right]; (split; [|auto]); [eexists|]; reflexivity.
Qed.

Lemma write_node_cases ignore n : nkind n = KDiscrete ->
  (exists ys, write_node ignore n = Ok ys) /\ printable (nname n) /\ Forall printable (nvalues n) /\ (ignore = false -> Forall printable_or_none (nmeta n)) \/
  write_node ignore n = Err ValueError.
Proof.
  intros K. unfold write_node, values_attr. rewrite K.
  destruct (leaf_cases "NAME" (Some (nname n))) as [[-> P]|[-> P]]; cbn [rbind]; [|right; reflexivity].
  destruct (some_leaves_cases "OUTCOME" (nvalues n)) as [[(ys & ->) V]|[-> V]]; cbn [rbind]; [|right; reflexivity].
  destruct (props_cases ignore (nmeta n)) as [[(zs & ->) M]|[-> M]]; cbn [rbind]; [|right; reflexivity].
  rewrite (leaf_ok "FOR" (Some (nname n)) P). cbn [rbind].
  destruct (some_leaves_cases "GIVEN" (rev (nporder n))) as [[(us & ->) G]|[-> G]]; cbn [rbind]; [|right; reflexivity].
  fold (table_text n). rewrite (leaf_ok "TABLE" (Some (table_text n)) (table_printable n)). cbn [rbind].
  left. split; [eexists; reflexivity|]. auto.
Qed.

Theorem write_tree_err ignore w : inv w -> ~ printable_net (negb ignore) w -> write_tree ignore w = Err ValueError.
Proof.
  intros I NP. pose proof (iv_c w I) as C. unfold write_tree.
  destruct (leaf_cases "NAME" (bname (wnet w))) as [[-> P]|[-> P]]; cbn [rbind]; [|reflexivity].
  destruct (props_cases ignore (bmeta (wnet w))) as [[(zs & ->) M]|[-> M]]; cbn [rbind]; [|reflexivity].
  assert (D : forall p, In p (ggraph (wnet w)) -> exists v i n, p = (v, i) /\ holds w v i n /\ deref (whp w) i = n /\ nname n = v).
  { intros (v, i) X. apply In_dget in X; [|apply C]. apply (co_same w C) in X.
    destruct (co_named w C v i X) as (m & Hm & E). exists v, i, m. split; [reflexivity|]. split; [split; assumption|].
    split; [unfold deref; apply nth_error_nth, Hm|exact E]. }
  destruct (mapM _ _) as [es|e] eqn:E; cbn [rbind].
  - exfalso. apply NP. constructor.
    + exact P.
    + intros X. apply M. destruct ignore; [discriminate|reflexivity].
    + intros v i n H. assert (G : In (v, i) (ggraph (wnet w))) by (apply dget_In, (co_same w C), H).
      destruct (D _ G) as (v' & i' & m & X & Hm & Dm & Nm). injection X as <- <-.
      assert (EQ : m = n) by (destruct H as [_ H], Hm as [_ Hm]; congruence). rewrite EQ in Dm, Nm.
      destruct (write_node_cases ignore n (inv_discrete w I _ _ _ H)) as [(_ & A1 & A2 & A3)|A].
      * rewrite <- Nm. split; [exact A1|]. split; [exact A2|]. intros X. apply A3. destruct ignore; [discriminate|reflexivity].
      * apply mapM_ok in E. exfalso. clear - E G A Dm. induction E as [|p q l l' Q _ IH]; [destruct G|].
        destruct G as [->|G]; [|exact (IH G)]. cbn in Q. rewrite Dm in Q. congruence.
  - apply mapM_err in E. destruct E as (p & Hp & Ep). destruct (D _ Hp) as (v & i & n & -> & Hn & Dn & _). cbn [snd] in Ep. rewrite Dn in Ep.
    destruct (write_node_cases ignore n (inv_discrete w I _ _ _ Hn)) as [[(ys & X) _]|X]; congruence.
Qed.

(** ** The document, read again *)
Definition lf' (tag : string) (x : option string) : xml := El tag [] (back x) [].

Lemma reread_lf d tag x : reread d (lf tag x) = lf' tag x.
Proof. destruct x as [[|]|]; reflexivity. Qed.

Definition net' (ignore : bool) (w : world) : list xml :=
  lf' "NAME" (bname (wnet w)) :: map (reread 2) (props_of ignore (bmeta (wnet w))) ++
  flat_map (fun n => [reread 2 (var_of ignore n); reread 2 (def_of n)]) (listed w).

Lemma kids_doc ignore w : exists t1 t2, reread 0 (doc_of ignore w) =
  El "BIF" [("VERSION", "0.3")] t1 [El "NETWORK" [] t2 (net' ignore w)].
Proof.
  unfold doc_of, net'. cbn [reread map no_text]. do 2 eexists. do 3 f_equal. rewrite reread_lf. f_equal. rewrite map_app. f_equal.
  rewrite !flat_map_concat_map, concat_map, map_map. reflexivity.
Qed.

Lemma reread_props d ignore l : map (reread d) (props_of ignore l) = if ignore then [] else map (lf' "PROPERTY") l.
Proof. destruct ignore; [reflexivity|]. cbn. rewrite map_map. apply map_ext. intros x. apply reread_lf. Qed.

Lemma in_props' d ignore l x : In x (map (reread d) (props_of ignore l)) -> xtag x = "PROPERTY"%string /\ xkids x = [].
Proof.
  rewrite reread_props. destruct ignore; [intros []|]. intros X. apply in_map_iff in X. destruct X as (y & <- & _). split; reflexivity.
Qed.

Definition var' (ignore : bool) (n : node) : xml := reread 2 (var_of ignore n).
Definition def' (n : node) : xml := reread 2 (def_of n).

Lemma kids_var' ignore n : xkids (var' ignore n) =
  lf' "NAME" (Some (nname n)) :: map (fun v => lf' "OUTCOME" (Some v)) (nvalues n) ++ map (reread 3) (props_of ignore (nmeta n)).
Proof.
  unfold var', var_of. cbn [reread xkids map]. rewrite reread_lf. f_equal. rewrite map_app. f_equal. rewrite map_map.
  apply map_ext. intros x. apply reread_lf.
Qed.

Lemma kids_def' n : xkids (def' n) =
  lf' "FOR" (Some (nname n)) :: map (fun p => lf' "GIVEN" (Some p)) (rev (nporder n)) ++ [lf' "TABLE" (Some (table_text n))].
Proof.
  unfold def', def_of. cbn [reread xkids map]. rewrite reread_lf. f_equal. rewrite map_app, map_map. f_equal.
  apply map_ext. intros x. apply reread_lf. cbn [map]. rewrite reread_lf. reflexivity.
Qed.

Lemma iter_flat tag e : (forall k, In k (xkids e) -> xtag k <> tag /\ xkids k = []) ->
  iter_tag tag e = if String.eqb tag (xtag e) then [e] else [].
Proof.
  intros H. rewrite iter_tag_eq, flat_map_nil; [apply app_nil_r|]. intros k Hk. destruct (H k Hk) as [T K].
  rewrite (iter_leaf tag k K). rewrite eqb_neq_s; [reflexivity|]. intros E. apply T. symmetry. exact E.
Qed.

Lemma in_kids_var' ignore n k : In k (xkids (var' ignore n)) ->
  xkids k = [] /\ (xtag k = "NAME" \/ xtag k = "OUTCOME" \/ xtag k = "PROPERTY")%string.
Proof.
  rewrite kids_var'. intros [<-|H]; [cbn; auto|]. apply in_app_or in H. destruct H as [H|H].
  - apply in_map_iff in H. destruct H as (v & <- & _). cbn; auto.
  - apply in_props' in H. tauto.
Qed.

Lemma in_kids_def' n k : In k (xkids (def' n)) ->
  xkids k = [] /\ (xtag k = "FOR" \/ xtag k = "GIVEN" \/ xtag k = "TABLE")%string.
Proof.
  rewrite kids_def'. intros [<-|H]; [cbn; auto|]. apply in_app_or in H. destruct H as [H|[<-|[]]].
  - apply in_map_iff in H. destruct H as (v & <- & _). cbn; auto.
  - cbn; auto.
Qed.

Lemma iter_vars ignore w : iter_tag "VARIABLE" (reread 0 (doc_of ignore w)) = map (var' ignore) (listed w).
Proof.
  destruct (kids_doc ignore w) as (t1 & t2 & ->). rewrite iter_tag_eq. cbn [xtag xkids flat_map String.eqb Ascii.eqb Bool.eqb app].
  rewrite app_nil_r, iter_tag_eq. cbn [xtag xkids String.eqb Ascii.eqb Bool.eqb app]. unfold net'. cbn [flat_map].
  rewrite (iter_leaf _ (lf' _ _)) by reflexivity. cbn [xtag lf' String.eqb Ascii.eqb Bool.eqb app].
  rewrite flat_map_app, flat_map_nil.
  - cbn [app]. generalize (listed w). intros l. induction l as [|n l IH]; [reflexivity|]. cbn [flat_map map app].
    fold (var' ignore n). fold (def' n). rewrite (iter_flat _ (var' ignore n)), (iter_flat _ (def' n)).
    + cbn [app]. rewrite IH. reflexivity.
    + intros k Hk. apply in_kids_def' in Hk. split; [|apply Hk]. destruct Hk as [_ [->|[->| ->]]]; discriminate.
    + intros k Hk. apply in_kids_var' in Hk. split; [|apply Hk]. destruct Hk as [_ [->|[->| ->]]]; discriminate.
  - intros k Hk. apply in_props' in Hk. destruct Hk as [T K]. rewrite iter_leaf, T by exact K. reflexivity.
Qed.

Lemma iter_defs ignore w : iter_tag "DEFINITION" (reread 0 (doc_of ignore w)) = map def' (listed w).
Proof.
  destruct (kids_doc ignore w) as (t1 & t2 & ->). rewrite iter_tag_eq. cbn [xtag xkids flat_map String.eqb Ascii.eqb Bool.eqb app].
  rewrite app_nil_r, iter_tag_eq. cbn [xtag xkids String.eqb Ascii.eqb Bool.eqb app]. unfold net'. cbn [flat_map].
  rewrite (iter_leaf _ (lf' _ _)) by reflexivity. cbn [xtag lf' String.eqb Ascii.eqb Bool.eqb app].
  rewrite flat_map_app, flat_map_nil.
  - cbn [app]. generalize (listed w). intros l. induction l as [|n l IH]; [reflexivity|]. cbn [flat_map map app].
    fold (var' ignore n). fold (def' n). rewrite (iter_flat _ (var' ignore n)), (iter_flat _ (def' n)).
    + cbn [app]. rewrite IH. reflexivity.
    + intros k Hk. apply in_kids_def' in Hk. split; [|apply Hk]. destruct Hk as [_ [->|[->| ->]]]; discriminate.
    + intros k Hk. apply in_kids_var' in Hk. split; [|apply Hk]. destruct Hk as [_ [->|[->| ->]]]; discriminate.
  - intros k Hk. apply in_props' in Hk. destruct Hk as [T K]. rewrite iter_leaf, T by exact K. reflexivity.
Qed.

Lemma find_all_props d ignore l : filter (fun k => String.eqb "PROPERTY" (xtag k)) (map (reread d) (props_of ignore l)) =
  map (reread d) (props_of ignore l).
Proof. apply filter_all. intros k Hk. apply in_props' in Hk. destruct Hk as [-> _]. reflexivity. Qed.

Lemma texts_props d ignore l : map xtext (map (reread d) (props_of ignore l)) = if ignore then [] else map back l.
Proof. rewrite reread_props. destruct ignore; [reflexivity|]. rewrite map_map. reflexivity. Qed.

Lemma head_ok (ign_w ign_r : bool) w : parse_head ign_r (reread 0 (doc_of ign_w w)) =
  Ok (mkNet [] [] [] (back (bname (wnet w))) (if negb (ign_w || ign_r) then map back (bmeta (wnet w)) else [])).
Proof.
  destruct (kids_doc ign_w w) as (t1 & t2 & ->). unfold parse_head, find_desc. cbn [xkids flat_map].
  rewrite app_nil_r, iter_tag_eq. cbn [xtag xkids String.eqb Ascii.eqb Bool.eqb app]. unfold net' at 1. cbn [flat_map].
  rewrite (iter_leaf _ (lf' _ _)) by reflexivity. cbn [xtag lf' String.eqb Ascii.eqb Bool.eqb app].
  do 2 f_equal. destruct ign_r; [rewrite orb_true_r; reflexivity|]. rewrite orb_false_r.
  unfold find_all at 2. cbn [xkids filter xtag String.eqb Ascii.eqb Bool.eqb flat_map]. rewrite app_nil_r.
  unfold find_all, net'. cbn [xkids filter xtag lf' String.eqb Ascii.eqb Bool.eqb]. rewrite filter_app, find_all_props, filter_none.
  - rewrite app_nil_r, texts_props. destruct ign_w; reflexivity.
  - intros k Hk. apply in_flat_map in Hk. destruct Hk as (n & _ & [<-|[<-|[]]]); reflexivity.
Qed.

Definition meta' (keep : bool) (n : node) : list (option string) := if keep then map back (nmeta n) else [].
Definition fresh (mt : node -> list (option string)) (n : node) : node := with_meta (new_node KDiscrete (nname n) (nvalues n)) (mt n).

Lemma back_filled s : s <> ""%string -> back (Some s) = Some s.
Proof. destruct s; [contradiction|reflexivity]. Qed.

Lemma variable_ok (ign_w ign_r : bool) w n : nname n <> ""%string -> Forall (fun x => x <> ""%string) (nvalues n) ->
  parse_variable ign_r w (var' ign_w n) =
  add_node (with_heap w (whp w ++ [fresh (meta' (negb (ign_w || ign_r))) n])) (length (whp w)).
Proof.
  intros N V. unfold parse_variable, child_text, find_child, find_all. rewrite !kids_var'.
  cbn [filter xtag lf' String.eqb Ascii.eqb Bool.eqb xtext rbind]. rewrite back_filled by exact N. cbn [string_text rbind].
  rewrite !filter_app.
  rewrite (filter_all (fun k => String.eqb "OUTCOME" (xtag k)) (map _ (nvalues n))).
  2:{ intros k Hk. apply in_map_iff in Hk. destruct Hk as (v & <- & _). reflexivity. }
  rewrite (filter_none (fun k => String.eqb "OUTCOME" (xtag k))).
  2:{ intros k Hk. apply in_props' in Hk. destruct Hk as [-> _]. reflexivity. }
  rewrite (filter_none (fun k => String.eqb "PROPERTY" (xtag k)) (map _ (nvalues n))).
  2:{ intros k Hk. apply in_map_iff in Hk. destruct Hk as (v & <- & _). reflexivity. }
  rewrite find_all_props, app_nil_r. cbn [app].
  assert (E : mapM (fun k => string_text (xtext k)) (map (fun v => El "OUTCOME" [] (back (Some v)) []) (nvalues n)) = Ok (nvalues n)).
  { revert V. generalize (nvalues n). induction l as [|x l IH]; intros V; [reflexivity|]. apply Forall_cons_iff in V. destruct V as [Vx V].
    cbn [map mapM xtext]. rewrite back_filled by exact Vx. cbn [string_text rbind]. rewrite IH by exact V. reflexivity. }
  unfold lf'. rewrite E. cbn [rbind]. rewrite texts_props. unfold fresh, meta'.
  destruct ign_r; [rewrite orb_true_r; reflexivity|]. rewrite orb_false_r. destruct ign_w; reflexivity.
Qed.

(** ** Reading the variables *)
Definition pairs (k : nat) (ns : list node) : dict oid := combine (map nname ns) (seq k (length ns)).

Lemma dkeys_pairs k ns : dkeys (pairs k ns) = map nname ns.
Proof.
  unfold pairs, dkeys. revert k. induction ns as [|n ns IH]; intros k; [reflexivity|]. cbn. f_equal. apply IH.
Qed.

Lemma dset_new {A} k (v : A) d : ~ In k (dkeys d) -> dset k v d = d ++ [(k, v)].
Proof.
  induction d as [|(k', v') d IH]; intros N; [reflexivity|]. cbn in *. rewrite eqb_neq_s by (intros ->; apply N; left; reflexivity).
  f_equal. apply IH. intros X. apply N. right. exact X.
Qed.

Lemma inv_fresh w keep n : inv w -> inv (with_heap w (whp w ++ [fresh keep n])).
Proof.
  intros I. pose proof (inv_new w KDiscrete (nname n) (nvalues n) I) as A. cbn [exec fst ret] in A.
  set (w1 := with_heap w (whp w ++ [new_node KDiscrete (nname n) (nvalues n)])) in *.
  pose proof (inv_label_node w1 (length (whp w)) (keep n) A) as B. cbn [exec] in B. unfold on_node in B.
  assert (E : nth_error (whp w1) (length (whp w)) = Some (new_node KDiscrete (nname n) (nvalues n))).
  { cbn. rewrite nth_error_app2, Nat.sub_diag by lia. reflexivity. }
  rewrite E in B. cbn [fst ret] in B.
  replace (list_set (length (whp w)) (with_meta (new_node KDiscrete (nname n) (nvalues n)) (keep n)) (whp w1))
    with (whp w ++ [fresh keep n]) in B; [exact B|].
  cbn. generalize (whp w). intros l. induction l as [|x l IH]; [reflexivity|]. cbn. f_equal. exact IH.
Qed.

Lemma variables_ok (ign_w ign_r : bool) ns : forall w, inv w -> gedges (wnet w) = [] -> lookup (wnet w) = ggraph (wnet w) ->
  NoDup (map nname ns) -> (forall v, In v (map nname ns) -> ~ In v (dkeys (lookup (wnet w)))) ->
  (forall n, In n ns -> nname n <> ""%string /\ Forall (fun x => x <> ""%string) (nvalues n)) ->
  let d := lookup (wnet w) ++ pairs (length (whp w)) ns in
  let w' := mkW (whp w ++ map (fresh (meta' (negb (ign_w || ign_r)))) ns) (mkNet d d [] (bname (wnet w)) (bmeta (wnet w))) in
  each_elem (parse_variable ign_r) (map (var' ign_w) ns) w = (w', Ok tt) /\ inv w'.
Proof.
  set (keep := meta' (negb (ign_w || ign_r))).
  induction ns as [|n ns IH]; intros w I E L ND D F.
  - cbn. rewrite !app_nil_r. destruct w as [h [lk g es nm mt]]. cbn in *. subst. split; [reflexivity|exact I].
  - cbn [map each_elem]. destruct (F n (or_introl eq_refl)) as [Fn Fv]. rewrite variable_ok by assumption. fold keep.
    set (w1 := with_heap w (whp w ++ [fresh keep n])).
    assert (I1 : inv w1) by apply inv_fresh, I.
    assert (A : nth_error (whp w1) (length (whp w)) = Some (fresh keep n)).
    { cbn. rewrite nth_error_app2, Nat.sub_diag by lia. reflexivity. }
    assert (I2 : inv (fst (exec w1 (AddNode (length (whp w)))))).
    { apply inv_add_node; [exact I1|]. intros m Hm. rewrite A in Hm. injection Hm as <-. split; reflexivity. }
    cbn [exec] in I2. unfold add_node in *. rewrite A in *. cbn [nname fresh with_meta new_node] in *.
    assert (Nn : ~ In (nname n) (dkeys (lookup (wnet w)))) by (apply D; left; reflexivity).
    assert (M : dmem (nname n) (lookup (wnet w1)) = false) by (apply dmem_nIn; exact Nn).
    rewrite M in *. cbn [andthen ret]. unfold graph_add_node in *. cbn [ggraph lookup set_lookup wnet w1 with_heap gedges bname bmeta] in *.
    rewrite <- L in *. change (lookup (wnet w1)) with (lookup (wnet w)) in *. rewrite M in *. cbn [fst ret] in I2.
    rewrite dset_new in * by exact Nn.
    set (w2 := with_net w1 _) in *.
    destruct (IH w2) as [R I3].
    + exact I2.
    + exact E.
    + reflexivity.
    + cbn in ND. apply NoDup_cons_iff in ND. apply ND.
    + intros v Hv. cbn. unfold dkeys. rewrite map_app. cbn. intros X. apply in_app_or in X. destruct X as [X|[<-|[]]].
      * apply (D v); [right; exact Hv|exact X].
      * cbn in ND. apply NoDup_cons_iff in ND. destruct ND as [X _]. exact (X Hv).
    + intros m Hm. apply F. right. exact Hm.
    + assert (EQ : whp w2 = whp w ++ [fresh keep n]) by reflexivity. rewrite EQ, app_length in R, I3. cbn [length] in R, I3.
      rewrite Nat.add_1_r in R, I3. cbn [w2 with_net wnet lookup bname bmeta] in R, I3. rewrite <- !app_assoc in R, I3. cbn [app] in R, I3.
      unfold pairs. cbn [map length seq combine]. fold (pairs (S (length (whp w))) ns). split; [exact R|exact I3].
Qed.

(** ** Reading the definitions *)
Definition own (n : node) : list nat := match nvalues n with [] => [] | _ :: _ => [length (nvalues n)] end.

Section Stage.
Variable d : dict oid.
Definition obj (p : string) : oid := match dget p d with Some i => i | None => 0 end.
Variable sz : string -> nat.
Variable keep : node -> list (option string).

Definition staged (n : node) (ps : list string) (t : table) (b : bool) : node :=
  mkNode KDiscrete (nname n) (nvalues n) (map (fun p => (p, obj p)) ps) ps t b (keep n).
Definition stage (n : node) (ps : list string) : node :=
  staged n ps (TArr false (np_zeros (own n ++ map sz ps))) false.

Lemma stage_nil n : stage n [] = fresh keep n.
Proof. unfold stage, staged, fresh, own. cbn. rewrite app_nil_r. reflexivity. Qed.

Lemma grown_stage n ps u : ~ In u ps -> grown sz u (obj u) (stage n ps) = stage n (ps ++ [u]).
Proof.
  intros N. unfold grown, reset, stage, staged, with_parents, with_cpd. cbn. rewrite dset_new, !map_app; [reflexivity|].
  unfold dkeys. rewrite map_map. cbn. rewrite map_id. exact N.
Qed.
End Stage.

Lemma edges_ok keep n d sz ps : forall done w i, inv w -> lookup (wnet w) = d -> (forall u, In u (dkeys d) -> size w u = sz u) ->
  dget (nname n) d = Some i -> nth_error (whp w) i = Some (stage d sz keep n done) ->
  NoDup (done ++ ps) -> (forall u, In u ps -> In u (dkeys d)) ->
  let w' := mkW (list_set i (stage d sz keep n (done ++ ps)) (whp w))
                (mkNet d (ggraph (wnet w)) (gedges (wnet w) ++ map (fun p => (p, nname n)) ps) (bname (wnet w)) (bmeta (wnet w))) in
  parse_edges (nname n) (map Some ps) w = (w', Ok tt) /\ inv w' /\ (forall u, In u (dkeys d) -> size w' u = sz u).
Proof.
  induction ps as [|p ps IH]; intros done w i I L S D H ND F.
  - cbn. rewrite !app_nil_r. destruct w as [h [lk g es nm mt]]. cbn in *. subst d.
    assert (X : list_set i (stage lk sz keep n done) h = h).
    { clear - H. revert i H. induction h as [|x h IHh]; intros [|i] H; cbn in *; try discriminate; [congruence|]. f_equal. apply IHh, H. }
    rewrite X. auto.
  - cbn [map parse_edges string_text]. pose proof (F p (or_introl eq_refl)) as Ip.
    pose proof (iv_c w I) as C. assert (Hn : holds w (nname n) i (stage d sz keep n done)) by (split; [rewrite L; exact D|exact H]).
    destruct (in_lookup w C p) as (o & m & Hp); [rewrite L; exact Ip|].
    assert (Np : ~ In p done).
    { intros X. apply NoDup_remove_2 in ND. apply ND. apply in_or_app. left. exact X. }
    assert (NE : ~ edge w p (nname n)).
    { intros X. apply (co_parents w C _ _ _ p Hn) in X. exact (Np X). }
    assert (O : o = obj d p) by (unfold obj; destruct Hp as [Hp _]; rewrite L in Hp; rewrite Hp; reflexivity).
    assert (I1 := inv_add_edge w p (nname n) I NE). cbn [exec] in I1.
    rewrite (add_edge_run w p (nname n) o m i _ I Hp Hn NE) in *. cbn [fst andthen] in *. subst o.
    assert (G : grown (size w) p (obj d p) (stage d sz keep n done) = stage d sz keep n (done ++ [p])).
    { rewrite <- grown_stage by exact Np. unfold grown, reset. do 4 f_equal. apply map_ext_in. intros u Hu.
      apply S. cbn in Hu. apply in_app_or in Hu. destruct Hu as [Hu|[<-|[]]]; [|exact Ip].
      apply (co_parents w C _ _ _ u Hn) in Hu. rewrite <- L. apply (co_ends w C _ _ Hu). }
    rewrite G in *. set (w1 := mkW _ _) in *.
    assert (SM : forall u, size w1 u = size w u).
    { intros u. apply size_similar; [reflexivity|]. apply (similar_set _ _ _ _ H). reflexivity. }
    destruct (IH (done ++ [p]) w1 i) as (R & I2 & S2).
    + exact I1.
    + exact L.
    + intros u Hu. rewrite SM. apply S, Hu.
    + exact D.
    + cbn. rewrite nth_error_list_set, H. destruct (Nat.eq_dec i i); [reflexivity|contradiction].
    + rewrite <- app_assoc. exact ND.
    + intros u Hu. apply F. right. exact Hu.
    + rewrite R. cbn [w1 whp wnet lookup ggraph gedges bname bmeta] in *. rewrite list_set_twice, <- !app_assoc in *. cbn [app map] in *.
      split; [reflexivity|]. split; assumption.
Qed.

Lemma givens_def' n : Forall (fun u => u <> ""%string) (nporder n) ->
  rev (map xtext (find_all "GIVEN" (def' n))) = map Some (nporder n).
Proof.
  intros F. unfold find_all. rewrite kids_def'. cbn [filter xtag lf' String.eqb Ascii.eqb Bool.eqb]. rewrite filter_app.
  rewrite filter_all by (intros k Hk; apply in_map_iff in Hk; destruct Hk as (v & <- & _); reflexivity).
  cbn [filter xtag String.eqb Ascii.eqb Bool.eqb]. rewrite app_nil_r, map_map, <- map_rev, rev_involutive.
  apply map_ext_in. intros u Hu. rewrite Forall_forall in F. cbn [xtext]. apply back_filled, F, Hu.
Qed.

Lemma for_def' n : nname n <> ""%string -> child_text "FOR" (def' n) = Ok (Some (nname n)).
Proof.
  intros N. unfold child_text, find_child, find_all. rewrite kids_def'. cbn [filter xtag lf' String.eqb Ascii.eqb Bool.eqb xtext].
  rewrite back_filled by exact N. reflexivity.
Qed.

Lemma table_def' n : prodn (shape (tarr (ncpd n))) <> 0 -> parse_table (def' n) = Ok (ravel_F (tarr (ncpd n))).
Proof.
  intros N. unfold parse_table, child_text, find_child, find_all. rewrite kids_def'. cbn [filter xtag lf' String.eqb Ascii.eqb Bool.eqb].
  rewrite filter_app, filter_none by (intros k Hk; apply in_map_iff in Hk; destruct Hk as (v & <- & _); reflexivity).
  cbn [app filter xtag lf' String.eqb Ascii.eqb Bool.eqb xtext rbind].
  assert (NE : map (fprint (int_table (ncpd n))) (ravel_F (tarr (ncpd n))) <> []).
  { intros X. apply (f_equal (@length _)) in X. rewrite map_length, length_ravel_F in X. exact (N X). }
  assert (T : table_text n <> ""%string).
  { intros X. destruct (join_ends _ NE (table_solid n)) as [(b & l & E & _) _]. fold (table_text n) in E. rewrite X in E. discriminate. }
  rewrite back_filled by exact T. unfold table_text. rewrite fields_of_line by (exact NE || apply table_solid).
  generalize (ravel_F (tarr (ncpd n))). intros l. induction l as [|q l IH]; [reflexivity|].
  cbn [map mapM]. rewrite fread_fprint. cbn [rbind]. rewrite IH. reflexivity.
Qed.

Definition fin (d : dict oid) (keep : node -> list (option string)) (n : node) : node := staged d keep n (nporder n) (TArr false (tarr (ncpd n))) true.

Record good (d : dict oid) (sz : string -> nat) (n : node) : Prop := {
  gd_name : nname n <> ""%string;
  gd_values : nvalues n <> [];
  gd_nodup : NoDup (nporder n);
  gd_parents : forall u, In u (nporder n) -> u <> ""%string /\ In u (dkeys d);
  gd_real : real_array (tarr (ncpd n));
  gd_shape : shape (tarr (ncpd n)) = length (nvalues n) :: map sz (nporder n);
  gd_size : prodn (shape (tarr (ncpd n))) <> 0
}.

Lemma definition_ok keep n d sz w i : inv w -> lookup (wnet w) = d -> (forall u, In u (dkeys d) -> size w u = sz u) ->
  dget (nname n) d = Some i -> nth_error (whp w) i = Some (fresh keep n) -> good d sz n ->
  let w' := mkW (list_set i (fin d keep n) (whp w))
                (mkNet d (ggraph (wnet w)) (gedges (wnet w) ++ map (fun p => (p, nname n)) (nporder n)) (bname (wnet w)) (bmeta (wnet w))) in
  parse_definition w (def' n) = (w', Ok tt) /\ inv w' /\ (forall u, In u (dkeys d) -> size w' u = sz u).
Proof.
  intros I L S D H G. unfold parse_definition. rewrite for_def' by apply G. cbn [rbind string_text]. rewrite L, D.
  rewrite givens_def' by (apply Forall_forall; intros u Hu; apply (gd_parents d sz n G u Hu)).
  rewrite <- (stage_nil d sz) in H.
  destruct (edges_ok keep n d sz (nporder n) [] w i I L S D H (gd_nodup d sz n G) (fun u Hu => proj2 (gd_parents d sz n G u Hu))) as (R & I1 & S1).
  rewrite R. cbn [andthen app] in *. set (w1 := mkW _ _) in *. clear R.
  set (st := stage d sz keep n (nporder n)) in *.
  assert (H1 : nth_error (whp w1) i = Some st).
  { cbn. rewrite nth_error_list_set, H. destruct (Nat.eq_dec i i); [reflexivity|contradiction]. }
  assert (Hn : holds w1 (nname n) i st) by (split; [exact D|exact H1]).
  unfold parse_cpd, hget. rewrite H1. cbn [rbind]. rewrite table_def' by apply G. cbn [rbind].
  assert (E : exists pv, mapM (parent_values (whp w1) st) (nporder st) = Ok pv /\ map (@length string) pv = map sz (nporder n)).
  { assert (Q : forall q, In q (nporder n) -> exists vs, parent_values (whp w1) st q = Ok vs /\ length vs = sz q).
    { intros q Hq. destruct (parent_values_resolved (whp w1) (size w1) st q) as (vs & E & Lv).
      - apply (inv_resolved w1 (nname n) i); [exact I1|exact Hn].
      - exact Hq.
      - exists vs. split; [exact E|]. rewrite Lv. apply S1, (gd_parents d sz n G q Hq). }
    change (nporder st) with (nporder n). revert Q. generalize (nporder n). intros l. induction l as [|q l IH]; intros Q; [exists []; auto|].
    destruct (Q q (or_introl eq_refl)) as (vs & E1 & L1).
    destruct IH as (pv & E2 & L2); [intros; apply Q; right; assumption|].
    exists (vs :: pv). cbn [mapM]. rewrite E1. cbn [rbind]. rewrite E2. cbn. split; congruence. }
  destruct E as (pv & -> & Lv). cbn [rbind]. rewrite Lv. change (nvalues st) with (nvalues n). rewrite <- (gd_shape d sz n G).
  rewrite reshape_ravel_F by (exact (gd_real d sz n G)).
  unfold on_node. rewrite H1. unfold set_cpd, store_table. cbn [nkind st stage staged].
  assert (TS : tshape (ncpd st) = shape (tarr (ncpd n))).
  { rewrite (gd_shape d sz n G). cbn. unfold own. pose proof (gd_values d sz n G) as V. destruct (nvalues n); [contradiction|reflexivity]. }
  assert (I2 := inv_set_cpd w1 i false (tarr (ncpd n)) I1 (gd_real d sz n G)). cbn [exec] in I2.
  unfold on_node in I2. rewrite H1 in I2. unfold set_cpd, store_table in I2. cbn [nkind st stage staged] in I2.
  change (ncpd (staged _ _ _ _ _ _)) with (ncpd st) in *. fold st in I2. fold st.
  destruct (list_eq_dec Nat.eq_dec (tshape (ncpd st)) (shape (tarr (ncpd n)))) as [X|X]; [|contradiction].
  cbn [fst ret] in *. assert (EQ : list_set i (with_cpd st (TArr false (tarr (ncpd n))) true) (whp w1) = list_set i (fin d keep n) (whp w)).
  { cbn [w1 whp]. rewrite list_set_twice. reflexivity. }
  unfold with_heap in *. rewrite EQ in *. split; [reflexivity|]. split; [exact I2|].
  intros u Hu. etransitivity; [|apply S1, Hu]. apply size_similar; [reflexivity|]. cbn [whp]. rewrite <- EQ.
  apply (similar_set _ _ _ _ H1). reflexivity.
Qed.

Lemma list_set_app {A} (l1 : list A) x y l2 : list_set (length l1) y (l1 ++ x :: l2) = l1 ++ y :: l2.
Proof. induction l1 as [|z l1 IH]; [reflexivity|]. cbn. f_equal. exact IH. Qed.

Lemma dget_pairs ns : forall k done n todo, ns = done ++ n :: todo -> NoDup (map nname ns) ->
  dget (nname n) (pairs k ns) = Some (k + length done).
Proof.
  induction ns as [|m ns IH]; intros k done n todo E ND; [destruct done; discriminate|].
  destruct done as [|m' done]; cbn in E; injection E as -> E.
  - subst. cbn. rewrite eqb_refl_s. f_equal. lia.
  - cbn in ND. apply NoDup_cons_iff in ND. destruct ND as [N ND]. cbn. rewrite eqb_neq_s.
    + fold (pairs (S k) ns). rewrite (IH (S k) done n todo E ND). f_equal. cbn. lia.
    + intros X. apply N. rewrite <- X, E. rewrite map_app. apply in_or_app. right. left. reflexivity.
Qed.

Definition links (n : node) : list (string * string) := map (fun p => (p, nname n)) (nporder n).

Lemma definitions_ok keep ns sz h nm mt : let d := pairs (length h) ns in NoDup (map nname ns) -> (forall n, In n ns -> good d sz n) ->
  forall todo done, ns = done ++ todo ->
  let w := mkW (h ++ map (fin d keep) done ++ map (fresh keep) todo) (mkNet d d (flat_map links done) nm mt) in
  inv w -> (forall u, In u (dkeys d) -> size w u = sz u) ->
  let w' := mkW (h ++ map (fin d keep) ns) (mkNet d d (flat_map links ns) nm mt) in
  each_elem parse_definition (map def' todo) w = (w', Ok tt) /\ inv w'.
Proof.
  intros d ND G todo. induction todo as [|n todo IH]; intros done E w I S.
  - rewrite app_nil_r in E. subst done. cbn. subst w. cbn in *. rewrite app_nil_r in *. split; [reflexivity|exact I].
  - cbn [map each_elem]. set (i := length h + length done).
    assert (P : length (h ++ map (fin d keep) done) = i) by (rewrite app_length, map_length; reflexivity).
    destruct (definition_ok keep n d sz w i) as (R & I1 & S1).
    + exact I.
    + reflexivity.
    + exact S.
    + apply (dget_pairs ns _ done n todo); [exact E|exact ND].
    + cbn [w whp map]. rewrite app_assoc, nth_error_app2 by lia. rewrite P, Nat.sub_diag. reflexivity.
    + apply G. rewrite E. apply in_or_app. right. left. reflexivity.
    + rewrite R. cbn [andthen]. cbn [w whp wnet ggraph gedges bname bmeta map] in *.
      rewrite app_assoc, <- P, list_set_app in *.
      assert (X : (h ++ map (fin d keep) done) ++ fin d keep n :: map (fresh keep) todo =
                  h ++ map (fin d keep) (done ++ [n]) ++ map (fresh keep) todo).
      { rewrite map_app, <- !app_assoc. reflexivity. }
      rewrite X in *.
      assert (Y : flat_map links done ++ map (fun p => (p, nname n)) (nporder n) = flat_map links (done ++ [n])).
      { rewrite flat_map_app. cbn. rewrite app_nil_r. reflexivity. }
      rewrite Y in *. apply (IH (done ++ [n])); [rewrite <- app_assoc; exact E|exact I1|exact S1].
Qed.

Lemma good_listed w n : inv w -> filled w -> In n (listed w) -> good (pairs 0 (listed w)) (size w) n.
Proof.
  intros I F Hn. pose proof (iv_c w I) as C. apply (listed_holds w n C) in Hn. destruct Hn as (i & H).
  destruct (F _ _ _ H) as (F1 & F2 & F3). destruct (iv_f w I _ _ _ H) as [K T].
  destruct (iv_s w I i n (proj2 H) K) as [(int & a & EA & RA) _].
  assert (PP : forall u, In u (nporder n) -> exists k m, holds w u k m).
  { intros u Hu. apply (co_parents w C _ _ _ u H) in Hu. apply (in_lookup w C), (co_ends w C _ _ Hu). }
  assert (SH : shape (tarr (ncpd n)) = length (nvalues n) :: map (size w) (nporder n)).
  { rewrite EA in *. cbn in *. rewrite T. unfold right_shape. destruct (nvalues n); [contradiction|reflexivity]. }
  constructor; try assumption.
  - apply (co_order w C _ _ _ H).
  - intros u Hu. destruct (PP u Hu) as (k & m & Hm). split; [apply (F _ _ _ Hm)|].
    rewrite dkeys_pairs. rewrite <- (named w C _ _ _ Hm) in Hm |- *. apply in_map. apply (listed_holds w m C). exists k. exact Hm.
  - rewrite EA. exact RA.
  - rewrite SH. assert (Z : forall l, (forall x, In x l -> x <> 0) -> prodn l <> 0).
    { induction l as [|x l IH]; intros X; [discriminate|]. cbn. apply Nat.neq_mul_0. split; [apply X; left; reflexivity|].
      apply IH. intros y Hy. apply X. right. exact Hy. }
    apply Z. intros x [<-|X].
    + destruct (nvalues n); [contradiction|discriminate].
    + apply in_map_iff in X. destruct X as (u & <- & Hu). destruct (PP u Hu) as (k & m & Hm). rewrite (size_get w u k m Hm).
      destruct (F _ _ _ Hm) as (_ & X & _). destruct (nvalues m); [contradiction|discriminate].
Qed.

Definition sound_heap (h : heap) : Prop := forall i n, nth_error h i = Some n -> nkind n = KDiscrete -> sound n.

Theorem parse_written (ign_w ign_r : bool) w h : inv w -> sound_heap h -> filled w ->
  let keep := negb (ign_w || ign_r) in
  let d := pairs (length h) (listed w) in
  let g := mkNet d d (flat_map links (listed w)) (back (bname (wnet w))) (if keep then map back (bmeta (wnet w)) else []) in
  let h' := h ++ map (fin d (meta' keep)) (listed w) in
  parse_tree ign_r h (reread 0 (doc_of ign_w w)) = (h', Ok g) /\ inv (mkW h' g).
Proof.
  intros I SH F keep d g h'. pose proof (iv_c w I) as C. unfold parse_tree. rewrite head_ok. fold keep.
  rewrite iter_vars, iter_defs. set (nm := back _). set (mt := if keep then _ else _).
  assert (NDn : NoDup (map nname (listed w))) by (rewrite listed_names by exact C; apply C).
  assert (FN : forall n, In n (listed w) -> nname n <> ""%string /\ Forall (fun x => x <> ""%string) (nvalues n)).
  { intros n Hn. apply (listed_holds w n C) in Hn. destruct Hn as (i & H). destruct (F _ _ _ H) as (F1 & F2 & F3). auto. }
  destruct (variables_ok ign_w ign_r (listed w) (mkW h (mkNet [] [] [] nm mt))) as [R I1].
  - apply inv_empty, SH.
  - reflexivity.
  - reflexivity.
  - exact NDn.
  - intros v _ [].
  - exact FN.
  - rewrite R. cbn [andthen] in *. clear R. fold keep in I1 |- *. cbn [wnet whp lookup app bname bmeta] in *. fold d in I1 |- *.
    assert (G : forall n, In n (listed w) -> good d (size w) n).
    { intros n Hn. destruct (good_listed w n I F Hn). constructor; try assumption.
      unfold d. rewrite dkeys_pairs. intros u Hu. rewrite <- (dkeys_pairs 0). apply gd_parents0, Hu. }
    assert (SZ : forall u, In u (dkeys d) -> size (mkW (h ++ map (fresh (meta' keep)) (listed w)) (mkNet d d [] nm mt)) u = size w u).
    { intros u Hu. unfold d in Hu. rewrite dkeys_pairs in Hu. apply in_map_iff in Hu. destruct Hu as (n & <- & Hn).
      pose proof Hn as Hl. apply (listed_holds w n C) in Hl. destruct Hl as (i & H). rewrite (size_get w _ _ _ H).
      apply in_split in Hn. destruct Hn as (l1 & l2 & E). unfold size. cbn [wnet lookup whp]. unfold d.
      rewrite (dget_pairs (listed w) (length h) l1 n l2 E NDn). rewrite nth_error_app2 by lia.
      replace (length h + length l1 - length h) with (length l1) by lia. rewrite E, map_app.
      rewrite nth_error_app2 by (rewrite map_length; lia). rewrite map_length, Nat.sub_diag. reflexivity. }
    destruct (definitions_ok (meta' keep) (listed w) (size w) h nm mt NDn G (listed w) [] eq_refl I1 SZ) as [R2 I2].
    cbn [map app flat_map] in R2. fold d in R2, I2. rewrite R2. split; [reflexivity|exact I2].
Qed.

Lemma fin_facts w d keep h nm mt : consistent w -> d = pairs (length h) (listed w) ->
  let w' := mkW (h ++ map (fin d keep) (listed w)) (mkNet d d (flat_map links (listed w)) nm mt) in
  forall v i n, holds w v i n -> exists i', length h <= i' /\ holds w' v i' (fin d keep n).
Proof.
  intros C -> w' v i n H. pose proof (named w C _ _ _ H) as <-.
  assert (Hn : In n (listed w)) by (apply (listed_holds w n C); exists i; exact H).
  apply in_split in Hn. destruct Hn as (l1 & l2 & E). exists (length h + length l1). split; [lia|]. split.
  - cbn. apply (dget_pairs _ _ _ _ l2); [exact E|]. rewrite listed_names by exact C. apply C.
  - cbn [w' whp]. rewrite nth_error_app2 by lia. replace (length h + length l1 - length h) with (length l1) by lia.
    rewrite E at 2. rewrite map_app, nth_error_app2 by (rewrite map_length; lia). rewrite map_length, Nat.sub_diag. reflexivity.
Qed.

(** Writing and reading back. *)
Theorem round_trip (ign_w ign_r : bool) w h : inv w -> sound_heap h -> printable_net (negb ign_w) w -> filled w ->
  exists t h1 g', write_tree ign_w w = Ok t /\ parse_tree ign_r h (reread 0 t) = (h ++ h1, Ok g') /\
    inv (mkW (h ++ h1) g') /\ reloaded (negb (ign_w || ign_r)) w (mkW (h ++ h1) g').
Proof.
  intros I SH P F. pose proof (iv_c w I) as C. destruct (parse_written ign_w ign_r w h I SH F) as [R I1].
  do 3 eexists. split; [apply write_tree_ok; assumption|]. split; [exact R|]. split; [exact I1|].
  set (keep := negb (ign_w || ign_r)) in *. set (d := pairs _ _) in *.
  constructor.
  - reflexivity.
  - reflexivity.
  - cbn [wnet ggraph lookup]. unfold d. rewrite dkeys_pairs. apply listed_names, C.
  - cbn [wnet ggraph lookup]. unfold d. rewrite dkeys_pairs. apply listed_names, C.
  - intros v i n H. destruct (fin_facts w d (meta' keep) h (back (bname (wnet w))) (if keep then map back (bmeta (wnet w)) else []) C eq_refl v i n H) as (i' & _ & H').
    exists i', (fin d (meta' keep) n). split; [exact H'|]. repeat split.
  - intros u v. unfold edge. cbn. rewrite in_flat_map. split.
    + intros (n & Hn & X). apply (listed_holds w n C) in Hn. destruct Hn as (i & H). apply in_map_iff in X. destruct X as (p & X & Hp).
      injection X as <- <-. apply (co_parents w C _ _ _ p H), Hp.
    + intros E. destruct (co_ends w C u v E) as [_ Iv]. destruct (in_lookup w C v Iv) as (i & n & H).
      pose proof (named w C _ _ _ H) as <-. exists n. split; [apply (listed_holds w n C); exists i; exact H|].
      apply in_map_iff. exists u. split; [reflexivity|]. apply (co_parents w C _ _ _ u H), E.
  - apply I1.
  - apply I1.
Qed.

End Round.
