(** Which exception reading a whole document raises. *)
From Verif Require Import Base BaseFacts NDArray NDArrayFacts Node Network NetSpec NetFacts NetInv NetOps NetOps2 NetTop
  Xml IO IOText IOSpec IOProof IOMore ParseSpec IOParse DocSpec DocProof.

Section Doc.
Context {FT : FloatText}.
Variable ignore : bool.

Lemma values_found vs x : NoDup (map vd_name vs) -> In x vs -> number_of_values vs (vd_name x) = length (vd_values x).
Proof.
  intros ND. unfold number_of_values. induction vs as [|y vs IH]; intros H; [destruct H|]. cbn in *. apply NoDup_cons_iff in ND. destruct ND as [N ND].
  destruct H as [->|H]; [rewrite eqb_refl_s; reflexivity|]. destruct (String.eqb (vd_name x) (vd_name y)) eqn:E; [|apply IH; assumption].
  apply String.eqb_eq in E. exfalso. apply N. rewrite <- E. apply in_map, H.
Qed.

Definition outcome_of (h : heap) (root : xml) (r : heap * res net) : Prop :=
  match r with
  | (_, Err e) => document_fault root e
  | (_, Ok g) => find_desc "NAME" root <> None /\ exists vs, Forall2 declares (iter_tag "VARIABLE" root) vs /\ NoDup (map vd_name vs) /\
      Forall (well_defined vs) (iter_tag "DEFINITION" root) /\ dkeys (lookup g) = map vd_name vs
  end.

Theorem parse_outcome h root : sound_heap h -> orderly root -> outcome_of h root (parse_tree ignore h root).
Proof.
  intros SH [OF OG]. unfold parse_tree. destruct (parse_head ignore root) as [g0|e] eqn:PH.
  2: { unfold parse_head in PH. destruct (find_desc "NAME" root) eqn:F; [discriminate|]. injection PH as <-. apply D_no_name, F. }
  assert (G0 : exists k, find_desc "NAME" root = Some k /\ g0 = mkNet [] [] [] (xtext k)
      (if ignore then [] else map xtext (flat_map (find_all "PROPERTY") (find_all "NETWORK" root)))).
  { unfold parse_head in PH. destruct (find_desc "NAME" root) as [k|]; [|discriminate]. injection PH as <-. exists k. auto. }
  destruct G0 as (k & FK & EG). set (mt := if ignore then _ else _) in EG.
  assert (FN : find_desc "NAME" root <> None) by congruence.
  destruct (each_elem (parse_variable ignore) _ (mkW h g0)) as [w1 [[]|e]] eqn:PV; cbn [andthen].
  2: { cbn [outcome_of]. destruct (each_split _ _ _ _ _ PV) as (pre & x & post & w2 & E & A & B). rewrite EG in A.
    destruct (variables_read ignore _ _ _ (inv_empty h (xtext k) mt SH) eq_refl eq_refl A) as (vs & FV & W1 & I1).
    cbn [wnet whp lookup app bname bmeta] in W1. apply variable_fails in B. rewrite W1 in B. cbn [wnet lookup] in B. rewrite dkeys_pairs, map_map in B.
    assert (NN : map (fun x => nname (made ignore x)) vs = map vd_name vs) by apply map_ext, made_name. rewrite NN in B.
    apply (D_variable root pre x post vs e FN E FV); [|exact B].
    pose proof (co_lookup _ (iv_c _ I1)) as X. rewrite W1 in X. cbn [wnet lookup] in X. rewrite dkeys_pairs, map_map, NN in X. exact X. }
  rewrite EG in PV.
  destruct (variables_read ignore _ _ _ (inv_empty h (xtext k) mt SH) eq_refl eq_refl PV) as (vs & FV & W1 & I1).
  cbn [wnet whp lookup app bname bmeta] in W1. set (ns := map (made ignore) vs) in *. set (d := pairs (length h) ns) in *.
  assert (NN : map nname ns = map vd_name vs) by (unfold ns; rewrite map_map; apply map_ext, made_name).
  assert (ND : NoDup (map nname ns)).
  { pose proof (co_lookup _ (iv_c _ I1)) as X. rewrite W1 in X. cbn [wnet lookup] in X. unfold d in X. rewrite dkeys_pairs in X. exact X. }
  assert (NV : NoDup (map vd_name vs)) by (rewrite <- NN; exact ND).
  assert (FR : forall n, In n ns -> fresh nmeta n = n).
  { intros n Hn. apply in_map_iff in Hn. destruct Hn as (x & <- & _). symmetry. apply made_fresh. }
  assert (E1 : w1 = at_stage h ns (xtext k) mt []).
  { assert (MB : map (built h ns []) ns = ns) by (transitivity (map (fun x => x) ns); [reflexivity|apply map_id]).
    rewrite W1. unfold at_stage. rewrite MB. reflexivity. }
  assert (KD : dkeys d = map vd_name vs) by (unfold d; rewrite dkeys_pairs; exact NN).
  set (sz := size w1).
  assert (LN : forall n, In n ns -> length (nvalues n) = number_of_values vs (nname n)).
  { intros n Hn. apply in_map_iff in Hn. destruct Hn as (x & <- & Hx). rewrite made_values, made_name. symmetry. apply values_found; assumption. }
  assert (SZ : forall u, In u (dkeys d) -> sz u = number_of_values vs u).
  { intros u Hu. unfold d in Hu. rewrite dkeys_pairs in Hu. apply in_map_iff in Hu. destruct Hu as (n & <- & Hn). rewrite <- (LN n Hn).
    apply in_split in Hn. destruct Hn as (l1 & l2 & E). apply (size_get w1 (nname n) (length h + length l1) n). split.
    - rewrite W1. apply (dget_pairs ns _ l1 n l2 E ND).
    - rewrite W1. cbn [whp]. rewrite nth_error_app2 by lia. replace (length h + length l1 - length h) with (length l1) by lia.
      rewrite E, nth_error_app2, Nat.sub_diag by lia. reflexivity. }
  assert (WD : forall es ds, Forall2 (fun e x => defines e (fst x)) es ds -> Forall (fits_in h ns sz) ds -> Forall (well_defined vs) es).
  { intros es ds F. induction F as [|e x es ds Dx F IH]; intros G; [constructor|]. inversion G as [|? ? (n & Hn & Fn & NVn & Gn & Rn) G']; subst. constructor; [|apply IH, G'].
    exists (fst x). split; [exact Dx|]. split; [rewrite Fn, <- NN; apply in_map, Hn|]. split; [intros u Hu; rewrite <- KD; apply Gn, Hu|].
    apply reshape_layout in Rn. destruct Rn as (-> & _). unfold entries. cbn [fold_right prodn]. rewrite Fn, <- (LN n Hn). f_equal. rewrite <- prodn_rev, <- map_rev, rev_involutive.
    revert Gn. generalize (df_given (fst x)). intros l Gl. induction l as [|u l IHl]; [reflexivity|]. cbn. rewrite (SZ u) by (apply Gl; left; reflexivity).
    rewrite IHl by (intros; apply Gl; right; assumption). reflexivity. }
  assert (RD : forall es w2, NoDup (map (first_text "FOR") es) -> (forall e, In e es -> NoDup (map xtext (find_all "GIVEN" e))) ->
    each_elem parse_definition es w1 = (w2, Ok tt) -> exists ds, Forall2 (fun e x => defines e (fst x)) es ds /\ Forall (fits_in h ns sz) ds /\ w2 = at_stage h ns (xtext k) mt ds /\ inv w2 /\
    (forall u, In u (dkeys d) -> size w2 u = sz u)).
  { intros es w2 N1 N2 PD. rewrite E1 in PD. destruct (definitions_read h ns (xtext k) mt sz ND FR es [] w2) as (ds & FD & FI & W2 & I2 & S2).
    - rewrite <- E1. exact I1.
    - intros u _. rewrite <- E1. reflexivity.
    - exact N1.
    - intros x [].
    - exact N2.
    - exact PD.
    - exists ds. auto. }
  destruct (each_elem parse_definition _ w1) as [w2 [[]|e]] eqn:PD; cbn [outcome_of].
  - split; [exact FN|]. destruct (RD _ _ OF OG PD) as (ds & FD & FI & W2 & I2 & S2). exists vs. split; [exact FV|]. split; [exact NV|].
    split; [exact (WD _ _ FD FI)|]. rewrite W2. exact KD.
  - destruct (each_split _ _ _ _ _ PD) as (pre & x & post & w3 & E & A & B).
    assert (OF' := OF). rewrite E, map_app in OF'. destruct (RD pre w3) as (ds & FD & FI & W2 & I2 & S2).
    + apply nodup_front in OF'. exact OF'.
    + intros y Hy. apply OG. rewrite E. apply in_or_app. left. exact Hy.
    + exact A.
    + apply (D_definition root pre x post vs e FN FV NV E (WD _ _ FD FI)).
      destruct (first_text "FOR" x) as [v|] eqn:FX.
      2: { unfold parse_definition in B. unfold first_text in FX. unfold child_text in B. destruct (find_child "FOR" x) eqn:FC; [discriminate|].
           injection B as _ <-. apply F_no_for. unfold first_text. rewrite FC. reflexivity. }
      assert (DV : {n | In n ns /\ v = Some (nname n)} + {~ declared vs v}).
      { destruct v as [v|]; [|right; intros (s & Y & _); discriminate].
        destruct (find (fun n => String.eqb v (nname n)) ns) as [n|] eqn:FF.
        - left. exists n. apply find_some in FF. destruct FF as [Y Z]. apply String.eqb_eq in Z. subst. auto.
        - right. intros (s & Y & Hs). injection Y as <-. rewrite <- NN in Hs. apply in_map_iff in Hs. destruct Hs as (n & <- & Hn).
          apply (find_none _ _ FF) in Hn. rewrite eqb_refl_s in Hn. discriminate. }
      destruct DV as [(n & Hn & ->)|NDv].
      * assert (Sp := Hn). apply in_split in Sp. destruct Sp as (l1 & l2 & EN). set (i := length h + length l1).
        assert (Dn : dget (nname n) d = Some i) by (apply (dget_pairs ns _ l1 n l2 EN ND)).
        assert (NB : ~ In (nname n) (map (fun x => df_for (fst x)) ds)).
        { intros X. assert (Q : In (Some (Some (nname n))) (map (first_text "FOR") pre)).
          { clear - X FD. induction FD as [|e y es ds (Q & _) F IH]; [destruct X|]. cbn in X |- *. destruct X as [X|X]; [left; rewrite Q, X; reflexivity|right; apply IH, X]. }
          cbn [map] in OF'. rewrite FX in OF'. apply NoDup_remove_2 in OF'. apply OF', in_or_app. left. exact Q. }
        assert (Ln : length (h ++ map (built h ns ds) l1) = i) by (rewrite app_length, map_length; reflexivity).
        assert (Hi : nth_error (whp w3) i = Some (fresh nmeta n)).
        { rewrite W2. cbn [at_stage whp]. rewrite EN at 2. rewrite map_app, app_assoc, nth_error_app2 by lia. rewrite Ln, Nat.sub_diag. cbn [map nth_error].
          rewrite built_none by exact NB. rewrite FR by exact Hn. reflexivity. }
        apply (definition_fails x w3 w2 d sz n i vs e I2); [rewrite W2; reflexivity|exact S2|exact KD|exact SZ|exact FX|exact Dn|exact Hi|apply LN, Hn| |exact B].
        apply OG. rewrite E. apply in_or_app. right. left. reflexivity.
      * assert (C := FX). apply child_first in C. unfold parse_definition in B. rewrite C in B. assert (e = PlainException).
        { destruct v as [v|]; [|injection B as _ <-; reflexivity]. destruct (dget v (lookup (wnet w3))) as [j|] eqn:DG; [|injection B as _ <-; reflexivity].
          exfalso. apply NDv. exists v. split; [reflexivity|]. apply dget_Some_key in DG. rewrite W2 in DG. cbn [at_stage wnet lookup] in DG. fold d in DG. rewrite KD in DG. exact DG. }
        subst e. exact (F_for vs x v FX NDv).
Qed.

(** ** A document has one first fault. *)
Lemma map_some_inj {A} (l l' : list A) : map Some l = map Some l' -> l = l'.
Proof. revert l'. induction l as [|a l IH]; intros [|b l'] E; try discriminate; [reflexivity|]. cbn in E. injection E as -> E. f_equal. apply IH, E. Qed.

Lemma declares_fun e x y : declares e x -> declares e y -> x = y.
Proof.
  intros (A & B & C) (A' & B' & C'). destruct x as [n v p], y as [n' v' p']. cbn in *. rewrite A in A'. rewrite B in B'. rewrite C in C'.
  injection A' as ->. apply map_some_inj in B'. congruence.
Qed.
Lemma declares_all_fun es : forall vs vs', Forall2 declares es vs -> Forall2 declares es vs' -> vs = vs'.
Proof.
  induction es as [|e es IH]; intros vs vs' A B; inversion A; inversion B; subst; [reflexivity|]. f_equal; [eapply declares_fun; eassumption|apply IH; assumption].
Qed.

Lemma variable_fault_fun before e x y : variable_fault before e x -> variable_fault before e y -> x = y.
Proof. intros A B. destruct A, B; try reflexivity; try congruence; exfalso; intuition congruence. Qed.
Lemma variable_fault_good before e x v : declares e v -> ~ In (vd_name v) before -> variable_fault before e x -> False.
Proof.
  intros (A & B & _) N F. assert (NN := texts_some _ _ B). destruct F as [X|X [Y|Y]|nm X Y Z]; congruence.
Qed.

Lemma declared_none vs : ~ declared vs None.
Proof. intros (s & E & _). discriminate. Qed.
Lemma given_declared vs l : (forall g, In g l -> declared vs g) -> exists gs, l = map Some gs /\ incl gs (map vd_name vs).
Proof.
  induction l as [|g l IH]; intros H; [exists []; split; [reflexivity|intros ? []]|]. destruct IH as (gs & -> & I); [intros; apply H; right; assumption|].
  destruct (H g (or_introl eq_refl)) as (s & -> & Hs). exists (s :: gs). split; [reflexivity|]. intros u [<-|Hu]; auto.
Qed.
Lemma declared_given vs gs : incl gs (map vd_name vs) -> forall g, In g (map Some gs) -> declared vs g.
Proof. intros I g Hg. apply in_map_iff in Hg. destruct Hg as (s & <- & Hs). exists s. auto. Qed.

Lemma definition_fault_fun vs e x y : definition_fault vs e x -> definition_fault vs e y -> x = y.
Proof.
  assert (FS : forall v gs, first_text "FOR" e = Some (Some v) -> In v (map vd_name vs) -> map xtext (find_all "GIVEN" e) = map Some gs -> incl gs (map vd_name vs) ->
     declared vs (Some v) /\ forall g, In g (map xtext (find_all "GIVEN" e)) -> declared vs g).
  { intros v gs A B C D. split; [exists v; auto|]. rewrite C. apply declared_given, D. }
  intros A B.
  destruct A as [A|v A1 A2|v A1 A2 (g & A3 & A4)|v A1 A2 A3 A4|v gs s A1 A2 A3 A4 A5 A6];
  destruct B as [B|v' B1 B2|v' B1 B2 (g' & B3 & B4)|v' B1 B2 B3 B4|v' gs' s' B1 B2 B3 B4 B5 B6]; try reflexivity; try congruence; exfalso;
  repeat match goal with H1 : first_text "FOR" e = Some ?a, H2 : first_text "FOR" e = Some ?b |- _ => assert (a = b) by congruence; subst; clear H2 end;
  try (destruct (FS _ _ A1 A2 A3 A4) as [F1 F2]); try (destruct (FS _ _ B1 B2 B3 B4) as [F1 F2]); try (destruct (FS _ _ A1 B2 B3 B4) as [F1 F2]); try contradiction; auto;
  intuition congruence.
Qed.

Lemma definition_fault_good vs e x : well_defined vs e -> definition_fault vs e x -> False.
Proof.
  intros (df & (A & B & s & T & C) & D & E & F) X. assert (DD : declared vs (Some (df_for df))) by (exists (df_for df); auto).
  assert (GD := declared_given vs _ E). rewrite <- B in GD.
  destruct X as [Y|v Y1 Y2|v Y1 Y2 (g & Y3 & Y4)|v Y1 Y2 Y3 Y4|v gs s' Y1 Y2 Y3 Y4 Y5 Y6]; try congruence.
  - apply Y4, GD, Y3.
  - destruct Y4; congruence.
  - apply Y6. exists (df_table df). rewrite T in Y5. injection Y5 as <-. split; [exact C|]. rewrite A in Y1. injection Y1 as <-. rewrite B in Y3. apply map_some_inj in Y3. subst gs. exact F.
Qed.

Lemma split_pos {A} (l1 : list A) : forall x l2 l1' x' l2', l1 ++ x :: l2 = l1' ++ x' :: l2' ->
  (l1 = l1' /\ x = x') \/ (exists m, l1' = l1 ++ x :: m) \/ (exists m, l1 = l1' ++ x' :: m).
Proof.
  induction l1 as [|a l1 IH]; intros x l2 [|b l1'] x' l2' E; cbn in E; injection E as E0 E; subst.
  - left. auto.
  - right. left. exists l1'. reflexivity.
  - right. right. exists l1. reflexivity.
  - destruct (IH _ _ _ _ _ E) as [[-> ->]|[(m & ->)|(m & ->)]]; [auto|right; left|right; right]; exists m; reflexivity.
Qed.

Lemma declares_names_nodup es pre x post vs : es = pre ++ x :: post -> Forall2 declares es vs -> NoDup (map vd_name vs) ->
  exists vp vx, Forall2 declares pre vp /\ declares x vx /\ ~ In (vd_name vx) (map vd_name vp) /\ NoDup (map vd_name vp).
Proof.
  intros -> F ND. apply Forall2_app_inv_l in F. destruct F as (vp & vr & F1 & F2 & ->). inversion F2 as [|? vx ? vq Dx F3]; subst. exists vp, vx.
  split; [exact F1|]. split; [exact Dx|]. rewrite map_app in ND. cbn in ND. split; [|apply nodup_front in ND; exact ND].
  apply NoDup_remove_2 in ND. intros X. apply ND, in_or_app. left. exact X.
Qed.

Lemma variable_unique root pre x post vs e pre' x' post' vs' e' :
  iter_tag "VARIABLE" root = pre ++ x :: post -> Forall2 declares pre vs -> NoDup (map vd_name vs) -> variable_fault (map vd_name vs) x e ->
  iter_tag "VARIABLE" root = pre' ++ x' :: post' -> Forall2 declares pre' vs' -> NoDup (map vd_name vs') -> variable_fault (map vd_name vs') x' e' -> e = e'.
Proof.
  intros A B C D A' B' C' D'. rewrite A in A'. destruct (split_pos _ _ _ _ _ _ A') as [[-> ->]|[(m & ->)|(m & ->)]].
  - rewrite (declares_all_fun _ _ _ B B') in D. eapply variable_fault_fun; eassumption.
  - exfalso. destruct (declares_names_nodup _ _ _ _ _ eq_refl B' C') as (vp & vx & F1 & F2 & F3 & _). rewrite (declares_all_fun _ _ _ F1 B) in F3.
    exact (variable_fault_good _ _ _ _ F2 F3 D).
  - exfalso. destruct (declares_names_nodup _ _ _ _ _ eq_refl B C) as (vp & vx & F1 & F2 & F3 & _). rewrite (declares_all_fun _ _ _ F1 B') in F3.
    exact (variable_fault_good _ _ _ _ F2 F3 D').
Qed.

Lemma variable_sound root pre x post vs vs' e : iter_tag "VARIABLE" root = pre ++ x :: post -> Forall2 declares pre vs -> variable_fault (map vd_name vs) x e ->
  Forall2 declares (iter_tag "VARIABLE" root) vs' -> NoDup (map vd_name vs') -> False.
Proof.
  intros A B C D E. destruct (declares_names_nodup _ _ _ _ _ A D E) as (vp & vx & F1 & F2 & F3 & _). rewrite (declares_all_fun _ _ _ F1 B) in F3.
  exact (variable_fault_good _ _ _ _ F2 F3 C).
Qed.

Lemma document_fault_fun root x y : document_fault root x -> document_fault root y -> x = y.
Proof.
  intros A B.
  destruct A as [A|pre a post vs e A1 A2 A3 A4 A5|pre a post vs e A1 A2 A3 A4 A5 A6];
  destruct B as [B|pre' b post' vs' e' B1 B2 B3 B4 B5|pre' b post' vs' e' B1 B2 B3 B4 B5 B6]; try reflexivity; try congruence.
  - exact (variable_unique root _ _ _ _ _ _ _ _ _ _ A2 A3 A4 A5 B2 B3 B4 B5).
  - destruct (variable_sound root _ _ _ _ _ _ A2 A3 A5 B2 B3).
  - destruct (variable_sound root _ _ _ _ _ _ B2 B3 B5 A2 A3).
  - rewrite (declares_all_fun _ _ _ A2 B2) in *. rewrite A4 in B4. destruct (split_pos _ _ _ _ _ _ B4) as [[-> ->]|[(m & ->)|(m & ->)]].
    + eapply definition_fault_fun; eassumption.
    + exfalso. apply Forall_app in B5. destruct B5 as [_ B5]. inversion B5; subst. eapply definition_fault_good; eassumption.
    + exfalso. apply Forall_app in A5. destruct A5 as [_ A5]. inversion A5; subst. eapply definition_fault_good; eassumption.
Qed.

Lemma document_sound root vs e : find_desc "NAME" root <> None -> Forall2 declares (iter_tag "VARIABLE" root) vs -> NoDup (map vd_name vs) ->
  Forall (well_defined vs) (iter_tag "DEFINITION" root) -> ~ document_fault root e.
Proof.
  intros A B C D [X|pre a post vs' e' A1 A2 A3 A4 A5|pre a post vs' e' A1 A2 A3 A4 A5 A6].
  - contradiction.
  - exact (variable_sound root _ _ _ _ _ _ A2 A3 A5 B C).
  - rewrite (declares_all_fun _ _ _ A2 B) in *. rewrite A4 in D. apply Forall_app in D. destruct D as [_ D]. inversion D; subst. eapply definition_fault_good; eassumption.
Qed.

Theorem document_raises h root e : sound_heap h -> orderly root ->
  ((exists h', parse_tree ignore h root = (h', Err e)) <-> document_fault root e).
Proof.
  intros SH O. assert (P := parse_outcome h root SH O). destruct (parse_tree ignore h root) as [h' [g|e']]; cbn [outcome_of] in P.
  - destruct P as (A & vs & B & C & D & _). split; [intros (h2 & X); discriminate|]. intros X. destruct (document_sound root vs e A B C D X).
  - split; [intros (h2 & X); injection X as _ <-; exact P|]. intros X. exists h'. rewrite (document_fault_fun _ _ _ P X). reflexivity.
Qed.

End Doc.
