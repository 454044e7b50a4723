(** Which exception reading a document raises. *)
From Verif Require Import Base BaseFacts NDArray NDArrayFacts Node Network NetSpec NetFacts NetInv NetOps NetOps2 NetTop
  Xml IO IOText IOSpec IOProof IOMore ParseSpec IOParse DocSpec.

Lemma each_split f l : forall w w' e, each_elem f l w = (w', Err e) ->
  exists pre x post w1, l = pre ++ x :: post /\ each_elem f pre w = (w1, Ok tt) /\ f w1 x = (w', Err e).
Proof.
  induction l as [|x l IH]; intros w w' e H; [discriminate|]. cbn [each_elem] in H. destruct (f w x) as [w1 [[]|e1]] eqn:F; cbn [andthen] in H.
  - destruct (IH w1 w' e H) as (pre & y & post & w2 & -> & A & B). exists (x :: pre), y, post, w2. split; [reflexivity|]. split; [|exact B].
    cbn [each_elem]. rewrite F. exact A.
  - injection H as <- <-. exists [], x, l, w. auto.
Qed.

Lemma nodup_front {A} (l1 l2 : list A) : NoDup (l1 ++ l2) -> NoDup l1.
Proof.
  induction l1 as [|x l1 IH]; intros N; [constructor|]. cbn in N. apply NoDup_cons_iff in N. destruct N as [X N].
  constructor; [|apply IH, N]. intros Y. apply X, in_or_app. left. exact Y.
Qed.

Section Doc.
Context {FT : FloatText}.

Lemma texts_none l e : mapM (fun k => string_text (xtext k)) l = Err e -> e = NoneText /\ In None (map xtext l).
Proof.
  induction l as [|k l IH]; intros H; [discriminate|]. cbn in H. destruct (xtext k) as [s|] eqn:E; cbn in H.
  - destruct (mapM _ l) as [r|e'] eqn:M; cbn in H; [discriminate|]. injection H as <-. destruct (IH eq_refl) as [A B]. split; [exact A|]. right. exact B.
  - injection H as <-. split; [reflexivity|]. left. exact E.
Qed.

Lemma texts_some l vs : map xtext l = map Some vs -> ~ In (@None string) (map xtext l).
Proof. intros E X. rewrite E in X. apply in_map_iff in X. destruct X as (y & Y & _). discriminate. Qed.

Lemma variable_fails ignore w x w' e : parse_variable ignore w x = (w', Err e) -> variable_fault (dkeys (lookup (wnet w))) x e.
Proof.
  unfold parse_variable. intros H. destruct (child_text "NAME" x) as [nm|e1] eqn:E1; cbn [rbind] in H.
  - destruct nm as [nm|]; cbn [string_text rbind] in H.
    + apply child_first in E1. destruct (mapM _ _) as [vs|e2] eqn:E2; cbn [rbind] in H.
      * unfold add_node in H. cbn [whp with_heap wnet] in H. rewrite nth_error_app2, Nat.sub_diag in H by lia. cbn [nth_error] in H.
        assert (N : nname (if ignore then new_node KDiscrete nm vs else with_meta (new_node KDiscrete nm vs) (map xtext (find_all "PROPERTY" x))) = nm)
          by (destruct ignore; reflexivity).
        rewrite N in H. destruct (dmem nm (lookup (wnet w))) eqn:M; [|discriminate].
        injection H as _ <-. apply (V_twice _ _ nm); [exact E1|apply (texts_some _ vs), mapM_text, E2|]. apply dmem_In. exact M.
      * injection H as _ <-. destruct (texts_none _ _ E2) as [-> X]. apply V_empty; [rewrite E1; discriminate|right; exact X].
    + injection H as _ <-. apply child_first in E1. apply V_empty; [rewrite E1; discriminate|left; exact E1].
  - injection H as _ <-. unfold child_text in E1. destruct (find_child "NAME" x) eqn:F; [discriminate|]. injection E1 as <-.
    apply V_no_name. unfold first_text. rewrite F. reflexivity.
Qed.

(** ** Definitions *)
Lemma edges_split cur gs : forall w w' e, parse_edges cur gs w = (w', Err e) ->
  exists ps g post w1, gs = map Some ps ++ g :: post /\ parse_edges cur (map Some ps) w = (w1, Ok tt) /\
    match g with None => e = PlainException | Some p => add_edge w1 p cur = (w', Err e) end.
Proof.
  induction gs as [|g gs IH]; intros w w' e H; [discriminate|]. cbn [parse_edges] in H. destruct g as [p|].
  - destruct (add_edge w p cur) as [w1 [[]|e1]] eqn:A; cbn [andthen] in H.
    + destruct (IH w1 w' e H) as (ps & g & post & w2 & -> & B & C). exists (p :: ps), g, post, w2. split; [reflexivity|]. split; [|exact C].
      cbn [map parse_edges]. rewrite A. exact B.
    + injection H as <- <-. exists [], (Some p), gs, w. auto.
  - injection H as <- <-. exists [], None, gs, w. auto.
Qed.

Lemma numbers_fail ts e : mapM (fun t => match fread t with Some q => Ok q | None => Err ValueError end) ts = Err e ->
  e = ValueError /\ In None (map fread ts).
Proof.
  induction ts as [|t ts IH]; intros H; [discriminate|]. cbn in H. destruct (fread t) as [q|] eqn:F; cbn in H.
  - destruct (mapM _ ts) as [r|e'] eqn:M; cbn in H; [discriminate|]. injection H as <-. destruct (IH eq_refl) as [A B]. split; [exact A|]. right. exact B.
  - injection H as <-. split; [reflexivity|]. left. exact F.
Qed.

Lemma definition_fails e w w' d sz n i vs x : inv w -> lookup (wnet w) = d -> (forall u, In u (dkeys d) -> size w u = sz u) ->
  dkeys d = map vd_name vs -> (forall u, In u (dkeys d) -> sz u = number_of_values vs u) ->
  first_text "FOR" e = Some (Some (nname n)) -> dget (nname n) d = Some i -> nth_error (whp w) i = Some (fresh nmeta n) ->
  length (nvalues n) = number_of_values vs (nname n) ->
  NoDup (map xtext (find_all "GIVEN" e)) -> parse_definition w e = (w', Err x) -> definition_fault vs e x.
Proof.
  intros I L S K SZ FT' D H LV ND R. unfold parse_definition in R. pose proof FT' as FT2. apply child_first in FT'. rewrite FT' in R.
  rewrite L, D in R.
  assert (Dn : declared vs (Some (nname n))) by (exists (nname n); split; [reflexivity|]; rewrite <- K; exact (dget_Some_key _ _ _ D)).
  destruct (parse_edges _ _ w) as [w1 [[]|e1]] eqn:PE; cbn [andthen] in R.
  - destruct (edges_read _ _ _ _ PE) as (ps & Ep & Fp). rewrite L in Fp.
    assert (EG : map xtext (find_all "GIVEN" e) = map Some (rev ps)).
    { rewrite map_rev, <- Ep, rev_involutive. reflexivity. }
    assert (NDp : NoDup ps).
    { rewrite EG in ND. apply NoDup_map_inv in ND. apply NoDup_rev in ND. rewrite rev_involutive in ND. exact ND. }
    rewrite <- (stage_nil d sz) in H.
    destruct (edges_ok nmeta n d sz ps [] w i I L S D H NDp Fp) as (R1 & I1 & S1). rewrite Ep in PE. rewrite PE in R1.
    injection R1 as R1. cbn [app] in R1, I1, S1. rewrite <- R1 in I1, S1.
    set (st := stage d sz nmeta n ps) in *.
    assert (H1 : nth_error (whp w1) i = Some st).
    { rewrite R1. cbn. rewrite nth_error_list_set, H. destruct (Nat.eq_dec i i); [reflexivity|contradiction]. }
    assert (D1 : lookup (wnet w1) = d) by (rewrite R1; reflexivity).
    assert (Hn : holds w1 (nname n) i st) by (split; [rewrite D1; exact D|exact H1]).
    assert (EV : exists pv, mapM (parent_values (whp w1) st) (nporder st) = Ok pv /\ map (@length string) pv = map sz ps).
    { assert (Q : forall q, In q ps -> exists vs, parent_values (whp w1) st q = Ok vs /\ length vs = sz q).
      { intros q Hq. destruct (parent_values_resolved (whp w1) (size w1) st q) as (us & E & Lv).
        - apply (inv_resolved w1 (nname n) i); [exact I1|exact Hn].
        - exact Hq.
        - exists us. split; [exact E|]. rewrite Lv. apply S1, Fp, Hq. }
      change (nporder st) with ps. revert Q. clear. generalize ps. intros l. induction l as [|q l IH]; intros Q; [exists []; auto|].
      destruct (Q q (or_introl eq_refl)) as (vs & E1 & L1).
      destruct IH as (pv & E2 & L2); [intros; apply Q; right; assumption|].
      exists (vs :: pv). cbn [mapM]. rewrite E1. cbn [rbind]. rewrite E2. cbn. split; congruence. }
    destruct EV as (pv & EV & Lv).
    assert (G : forall g, In g (map xtext (find_all "GIVEN" e)) -> declared vs g).
    { intros g Hg. rewrite EG in Hg. apply in_map_iff in Hg. destruct Hg as (u & <- & Hu). apply in_rev in Hu. exists u. split; [reflexivity|].
      rewrite <- K. apply Fp, Hu. }
    assert (GI : incl (rev ps) (map vd_name vs)) by (intros u Hu; apply in_rev in Hu; rewrite <- K; apply Fp, Hu).
    assert (EN : prodn (length (nvalues n) :: map sz ps) = entries vs (nname n :: rev ps)).
    { unfold entries. cbn [fold_right prodn]. rewrite <- LV. f_equal. rewrite <- prodn_rev, <- map_rev.
      assert (GK : forall u, In u (rev ps) -> sz u = number_of_values vs u) by (intros u Hu; apply SZ; apply in_rev in Hu; apply Fp, Hu).
      revert GK. generalize (rev ps). intros l GK. induction l as [|u l IH]; [reflexivity|]. cbn. rewrite (GK u (or_introl eq_refl)), IH by (intros; apply GK; right; assumption).
      reflexivity. }
    unfold parse_cpd, hget in R. rewrite H1 in R. cbn [rbind] in R.
    destruct (parse_table e) as [l|e2] eqn:PT; cbn [rbind] in R.
    + destruct (table_read _ _ PT) as (s & T1 & T2).
      rewrite EV in R. cbn [rbind] in R. rewrite Lv in R. change (nvalues st) with (nvalues n) in R.
      assert (X : x = ValueError /\ length l <> prodn (length (nvalues n) :: map sz ps)).
      { destruct (reshape_F _ l) as [a|e3] eqn:RF.
        - assert (RS := reshape_layout _ _ _ RF). destruct RS as (LL & _ & SA & _). unfold on_node in R. rewrite H1 in R.
          unfold set_cpd, store_table in R. cbn [nkind st stage staged] in R. change (ncpd (staged _ _ _ _ _ _)) with (ncpd st) in R. fold st in R.
          destruct (list_eq_dec Nat.eq_dec (tshape (ncpd st)) (shape a)) as [Y|Y]; [discriminate|]. exfalso.
          destruct (nvalues n) as [|v0 vr] eqn:NV.
          + cbn [length prodn Nat.mul] in LL. destruct l; [|discriminate]. apply (f_equal (@length _)) in T2. rewrite !map_length in T2. cbn in T2.
            destruct (split_at space (strip s)) eqn:SP; [|discriminate]. revert SP. generalize (strip s). intros z. destruct z as [|a0 z]; cbn; [discriminate|].
            destruct (Ascii.eqb a0 space); [discriminate|]. destruct (split_at space z); discriminate.
          + apply Y. rewrite SA. cbn [ncpd st stage staged tshape shape np_zeros tabulate]. unfold own. rewrite NV. reflexivity.
        - injection R as _ <-. unfold reshape_F in RF. destruct (Nat.eqb (length l) _) eqn:NE; [discriminate|]. injection RF as <-.
          apply Nat.eqb_neq in NE. auto. }
      destruct X as [-> X]. apply (F_table vs e (nname n) (rev ps) s FT2); [rewrite <- K; exact (dget_Some_key _ _ _ D)|exact EG|exact GI|exact T1|].
      intros (l' & E1 & E2). apply X. rewrite EN, <- E2. f_equal. rewrite T2 in E1. clear - E1. revert l' E1. induction l as [|a l IH]; intros [|b l'] E; try discriminate; [reflexivity|].
      cbn in E. injection E as -> E. f_equal. apply IH, E.
    + injection R as _ <-. unfold parse_table in PT. destruct (child_text "TABLE" e) as [[s|]|e3] eqn:CT; cbn [rbind] in PT.
      * destruct (numbers_fail _ _ PT) as [-> X]. apply child_first in CT.
        apply (F_table vs e (nname n) (rev ps) s FT2); [rewrite <- K; exact (dget_Some_key _ _ _ D)|exact EG|exact GI|exact CT|].
        intros (l' & E1 & _). rewrite E1 in X. apply in_map_iff in X. destruct X as (y & Y & _). discriminate.
      * injection PT as <-. apply child_first in CT. exact (F_no_table vs e _ FT2 Dn G (or_intror CT)).
      * unfold child_text in CT. destruct (find_child "TABLE" e) eqn:FC; [discriminate|]. injection CT as <-. injection PT as <-.
        apply (F_no_table vs e _ FT2 Dn G). left. unfold first_text. rewrite FC. reflexivity.
  - injection R as _ <-. destruct (edges_split _ _ _ _ _ PE) as (ps & g & post & w2 & EQ & PE2 & C).
    assert (Ig : In g (map xtext (find_all "GIVEN" e))) by (apply in_rev; rewrite EQ; apply in_or_app; right; left; reflexivity).
    destruct (edges_read _ _ _ _ PE2) as (ps' & Ep & Fp). rewrite L in Fp.
    assert (ps' = ps).
    { clear - Ep. revert ps' Ep. induction ps as [|a l IH]; intros [|b l'] E; try discriminate; [reflexivity|]. cbn in E. injection E as -> E. f_equal. apply IH, E. }
    subst ps'. assert (NDg : NoDup (map Some ps ++ g :: post)).
    { rewrite <- EQ. apply NoDup_rev, ND. }
    assert (NDp : NoDup ps). { apply nodup_front in NDg. apply NoDup_map_inv in NDg. exact NDg. }
    rewrite <- (stage_nil d sz) in H.
    destruct (edges_ok nmeta n d sz ps [] w i I L S D H NDp Fp) as (R1 & I1 & S1). rewrite PE2 in R1.
    injection R1 as R1. cbn [app] in R1, I1, S1. rewrite <- R1 in I1, S1.
    assert (D1 : lookup (wnet w2) = d) by (rewrite R1; reflexivity).
    destruct g as [p|].
    + destruct (in_dec string_dec p (dkeys d)) as [Ip|Np].
      * exfalso. destruct (edges_ok nmeta n d sz (ps ++ [p]) [] w i I L S D H) as (R2 & _ & _).
        { cbn [app]. assert (NDs : NoDup (map Some (ps ++ [p]))).
          { rewrite map_app. cbn [map]. apply (nodup_front (map Some ps ++ [Some p]) post). rewrite <- app_assoc. exact NDg. }
          apply NoDup_map_inv in NDs. exact NDs. }
        { intros u Hu. apply in_app_or in Hu. destruct Hu as [Hu|[<-|[]]]; [apply Fp, Hu|exact Ip]. }
        assert (PA : parse_edges (nname n) (map Some (ps ++ [p])) w = (w1, Err e1)).
        { clear - PE2 C. revert w PE2. induction ps as [|a l IH]; intros w PE2.
          - cbn in PE2. injection PE2 as ->. cbn [app map parse_edges]. rewrite C. reflexivity.
          - cbn [map app parse_edges] in *. destruct (add_edge w a (nname n)) as [w3 [[]|]]; cbn [andthen] in *; [|discriminate]. apply IH, PE2. }
        rewrite PA in R2. discriminate.
      * assert (e1 = PlainException).
        { unfold add_edge in C. destruct (dget p (lookup (wnet w2))) as [o|] eqn:DP.
          - exfalso. apply Np. rewrite <- D1. exact (dget_Some_key _ _ _ DP).
          - destruct (dmem p (ggraph (wnet w2))) eqn:GP; [|cbn in C; injection C as _ <-; reflexivity]. exfalso.
            apply dmem_In, dget_key in GP. destruct GP as [o Ho]. apply (co_same _ (iv_c _ I1)) in Ho. congruence. }
        subst e1. apply (F_given vs e _ FT2 Dn). exists (Some p). split; [exact Ig|]. intros (s & E & Hs). injection E as <-. rewrite <- K in Hs. contradiction.
    + subst e1. apply (F_given vs e _ FT2 Dn). exists None. split; [exact Ig|]. intros (s & E & _). discriminate.
Qed.

End Doc.
