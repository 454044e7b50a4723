(** Whole calls of a FactorTree in rounded arithmetic. *)
From Verif Require Import Base BaseFacts NDArray NDArrayFacts SumCalc Factor FactorFacts Exact Order Spec SpecFacts VEProof VEProof2
  JoinTree HuginPure Hugin JTProof JTProof2 JTBuild3 TreeSpec JTTop JTJunction JTHistory Rounded RoundedSpec RoundedProof RoundedTop RoundedTree RoundedTreeSpec RoundedTreeProof.

Section Top.
Context {RD : Rounding} {AD : Adding} {SO : SetOrder}.
Variable b : bn.
Hypothesis WB : wf_bn b.
Hypothesis NN : nonneg_bn b.
Notation dom := (values_of b).
Notation W := (sumn (sizes b (bnames b))).
Notation cnear := (cnear b).
Notation tnear := (tnear b).
Definition tot (c : string -> nat) (l : list string) : nat := sumn (map c l).

(** ** Loading *)
Fixpoint put (mul : factor -> factor -> res factor) (P : list string -> bool) (f : factor) (l : dict clique) : res (dict clique) :=
  match l with
  | [] => Ok []
  | (k, c) :: l' => if P (cvars c) then let* g := mul (cfac c) f in Ok ((k, mkC (cvars c) g) :: l')
                    else let* r := put mul P f l' in Ok ((k, c) :: r)
  end.
Lemma assign_factor_put mul f l : assign_factor_by mul f l = put mul (subset (dkeys (fvals f))) f l.
Proof. induction l as [|[k c] l IH]; cbn; [reflexivity|]. rewrite IH. reflexivity. Qed.
Lemma assign_evidence_put mul v f l : assign_evidence_by mul v f l = put mul (mem v) f l.
Proof. induction l as [|[k c] l IH]; cbn; [reflexivity|]. rewrite IH. reflexivity. Qed.

Lemma tot_ext c c' l : (forall a, In a l -> c a = c' a) -> tot c l = tot c' l.
Proof. intros H. unfold tot. f_equal. apply map_ext_in, H. Qed.

Lemma put_near_by P j f f' l l' c l1 : near dom j f f' -> Forall2 (cnear c) l l' -> NoDup (dkeys l) -> put fmul P f l = Ok l1 ->
  exists l1' c1, put rmul P f' l' = Ok l1' /\ Forall2 (cnear c1) l1 l1' /\ dkeys l1 = dkeys l /\ tot c1 (dkeys l) <= tot c (dkeys l) + (j + 1) /\ (forall a, ~ In a (dkeys l) -> c1 a = c a).
Proof.
  intros NF F. revert l1. induction F as [|[k x] [k' x'] l l' (H1 & H2 & H3) F IH]; intros l1 ND E; cbn [put dkeys map fst snd] in *.
  - inversion E; subst. exists [], c. repeat split; auto. cbn. lia.
  - subst k'. rewrite H2. inversion ND as [|? ? NI ND']; subst. destruct (P (cvars x)).
    + destruct (fmul (cfac x) f) as [g|] eqn:G; cbn [rbind] in E; [|discriminate]. inversion E; subst l1. destruct (near_mul dom _ _ _ _ _ _ _ H3 NF G) as (g' & G' & NG). rewrite G'. cbn [rbind].
      assert (SAME : forall a, In a (map fst l) -> upd c k (c k + (j + 1)) a = c a) by (intros a Ha; unfold upd; destruct (String.eqb_spec a k) as [->|]; [contradiction|reflexivity]).
      eexists. exists (upd c k (c k + (j + 1))). split; [reflexivity|]. split; [|split; [reflexivity|split]].
      * constructor; [split; [reflexivity|split; [reflexivity|]]; cbn [fst snd cfac]; unfold upd; rewrite eqb_refl_s; eapply near_mono; [|exact NG]; lia|].
        eapply cnear_mono; [|exact F]. intros a Ha. rewrite SAME by exact Ha. lia.
      * assert (T : tot (upd c k (c k + (j + 1))) (map fst l) = tot c (map fst l)) by (apply tot_ext, SAME). unfold tot in *. cbn [map sumn fold_right]. unfold sumn in *. rewrite T. unfold upd. rewrite eqb_refl_s. lia.
      * intros a Ha. unfold upd. destruct (String.eqb_spec a k) as [->|]; [exfalso; apply Ha; left; reflexivity|reflexivity].
    + destruct (put fmul P f l) as [r|] eqn:R; cbn [rbind] in E; [|discriminate]. inversion E; subst l1. destruct (IH r ND' eq_refl) as (r' & c1 & R' & F1 & K1 & T1 & O1). rewrite R'. cbn [rbind].
      eexists. exists c1. split; [reflexivity|]. split; [|split; [|split]].
      * constructor; [|exact F1]. split; [reflexivity|]. split; [exact H2|]. cbn [fst snd] in *. rewrite O1 by exact NI. exact H3.
      * cbn. f_equal. exact K1.
      * unfold tot, dkeys in *. cbn [map sumn fold_right]. unfold sumn in *. rewrite (O1 k NI). lia.
      * intros a Ha. apply O1. intros H. apply Ha. right. exact H.
Qed.

Lemma put_near P f l l' c l1 : near dom 0 f f -> Forall2 (cnear c) l l' -> NoDup (dkeys l) -> put fmul P f l = Ok l1 ->
  exists l1' c1, put rmul P f l' = Ok l1' /\ Forall2 (cnear c1) l1 l1' /\ dkeys l1 = dkeys l /\ tot c1 (dkeys l) <= tot c (dkeys l) + 1 /\ (forall a, ~ In a (dkeys l) -> c1 a = c a).
Proof. exact (put_near_by P 0 f f l l' c l1). Qed.

Lemma factors_near fs l l' c l1 : Forall (fun f => near dom 0 f f) fs -> Forall2 (cnear c) l l' -> NoDup (dkeys l) -> foldM (fun l f => assign_factor f l) fs l = Ok l1 ->
  exists l1' c1, foldM (fun l f => assign_factor_by rmul f l) fs l' = Ok l1' /\ Forall2 (cnear c1) l1 l1' /\ dkeys l1 = dkeys l /\ tot c1 (dkeys l) <= tot c (dkeys l) + length fs.
Proof.
  intros NF. revert l l' c. induction NF as [|f fs N NF IH]; intros l l' c F ND E; cbn [foldM length] in *.
  - inversion E; subst. exists l', c. split; [reflexivity|]. split; [exact F|]. split; [reflexivity|lia].
  - rewrite <- (assign_factor_same f l), assign_factor_put in E. destruct (put fmul _ f l) as [l2|] eqn:A; cbn [rbind] in E; [|discriminate].
    destruct (put_near _ _ _ _ _ _ N F ND A) as (l2' & c2 & A' & F2 & K2 & T2 & _). rewrite assign_factor_put, A'. cbn [rbind].
    destruct (IH l2 l2' c2 F2) as (l3' & c3 & E3 & F3 & K3 & T3); [rewrite K2; exact ND|exact E|]. exists l3', c3. split; [exact E3|]. split; [exact F3|]. split; [congruence|]. rewrite K2 in T3. lia.
Qed.

Lemma nodes_near : Forall (fun f => near dom 0 f f) (map from_node (bnodes b)).
Proof. apply Forall_forall. intros f Hf. apply in_map_iff in Hf as (n & <- & Hn). apply (near_node b WB NN n Hn). Qed.

Lemma assign_all_near t t' c s t1 : tnear c s t t' -> NoDup (dkeys (tnodes t)) -> assign_factors (map from_node (bnodes b)) t = Ok t1 ->
  exists t1' c1, assign_factors_by rmul (map from_node (bnodes b)) t' = Ok t1' /\ tnear c1 s t1 t1' /\ dkeys (tnodes t1) = dkeys (tnodes t) /\
    tot c1 (dkeys (tnodes t)) <= tot c (dkeys (tnodes t)) + length (bnodes b).
Proof.
  intros [A V N E] ND H. unfold assign_factors in H. destruct (foldM _ _ (tnodes t)) as [l1|] eqn:F; cbn [rbind] in H; [|discriminate]. inversion H; subst t1.
  destruct (factors_near _ _ _ _ _ nodes_near N ND F) as (l1' & c1 & F' & N1 & K1 & T1). unfold assign_factors_by. rewrite F'. cbn [rbind]. eexists; exists c1. split; [reflexivity|].
  split; [split; assumption|]. split; [exact K1|]. rewrite map_length in T1. exact T1.
Qed.

Lemma trivial_near : near dom 0 (trivial 1%Qc) (trivial 1%Qc).
Proof. apply near_refl; [apply wf_trivial|]. constructor; [discriminate|constructor]. Qed.
Lemma clear_near t : tnear (fun _ => 0) (fun _ _ => 0) (clear_factors t) (clear_factors t).
Proof.
  split; try reflexivity.
  - cbn. induction (tnodes t) as [|p l IH]; cbn; constructor; [|exact IH]. split; [reflexivity|]. split; [reflexivity|]. apply trivial_near.
  - intros u v d Hd. exists d. split; [exact Hd|]. split; [reflexivity|]. cbn in Hd. revert Hd. induction (tedges t) as [|[e x] l IH]; cbn; [discriminate|].
    destruct (same_edge u v e); [intros X; inversion X; subst; apply trivial_near|exact IH].
Qed.

Lemma reset_near t t1 : NoDup (dkeys (tnodes t)) -> reset_factors b t = (t1, Ok tt) ->
  exists t1' c, rounded_reset b t = (t1', Ok tt) /\ tnear c (fun _ _ => 0) t1 t1' /\ tvalid t1 = false /\ dkeys (tnodes t1) = dkeys (tnodes t) /\ tot c (dkeys (tnodes t1)) <= length (bnodes b).
Proof.
  intros ND E. unfold reset_factors in E. destruct (assign_factors _ _) as [t2|] eqn:A; [|discriminate]. inversion E; subst t1.
  assert (K : dkeys (tnodes (clear_factors t)) = dkeys (tnodes t)) by (cbn; unfold dkeys; rewrite map_map; reflexivity).
  rewrite <- K in ND. destruct (assign_all_near (clear_factors t) (clear_factors t) _ _ t2 (clear_near t) ND A) as (t2' & c & A' & [TA TV TN TE] & K2 & T2).
  exists (set_valid false t2'), c. split; [unfold rounded_reset, reset_factors_by; rewrite A'; reflexivity|]. split; [split; assumption || reflexivity|]. split; [reflexivity|].
  cbn [set_valid tnodes]. rewrite K2, K in *. split; [reflexivity|]. eapply Nat.le_trans; [exact T2|]. unfold tot. replace (sumn (map (fun _ => 0) (dkeys (tnodes t)))) with 0; [lia|].
  clear. unfold sumn. induction (dkeys (tnodes t)); cbn; lia.
Qed.

Lemma evidence_near ev0 ev t t' c s t1 : ev_ok b ev0 -> incl ev ev0 -> tnear c s t t' -> NoDup (dkeys (tnodes t)) -> each (add_tree_evidence b []) ev t = (t1, Ok tt) ->
  exists t1' c1, each (add_tree_evidence_by rmul b) ev t' = (t1', Ok tt) /\ tnear c1 s t1 t1' /\ dkeys (tnodes t1) = dkeys (tnodes t) /\
    tot c1 (dkeys (tnodes t)) <= tot c (dkeys (tnodes t)) + length ev.
Proof.
  intros EV. revert t t' c. induction ev as [|[v e] ev IH]; intros t t' c I TN ND E; cbn [each length] in *.
  - inversion E; subst. exists t', c. split; [reflexivity|]. split; [exact TN|]. split; [reflexivity|lia].
  - destruct (add_tree_evidence b [] (v, e) t) as [t2 [u|x]] eqn:A; [|discriminate]. unfold add_tree_evidence in A. cbv zeta in A. cbn [fst snd dget] in A.
    destruct (get_node b v) as [n|] eqn:G; cbn [rbind] in A; [|discriminate]. destruct (as_evidence v (dn_values n) e None) as [ef|] eqn:AE; cbn [rbind] in A; [|discriminate].
    rewrite <- assign_evidence_same, assign_evidence_put in A. destruct (put fmul _ ef (tnodes t)) as [l2|] eqn:P; [|discriminate]. inversion A; subst t2.
    destruct TN as [TA TV TNo TE]. destruct (put_near _ _ _ _ _ _ (near_ev b WB ev0 EV v e n ef (I _ (or_introl eq_refl)) G AE) TNo ND P) as (l2' & c2 & P' & F2 & K2 & T2 & _).
    destruct (IH (mkT l2 (tadj t) (tedges t) (tvalid t)) (mkT l2' (tadj t') (tedges t') (tvalid t')) c2) as (t1' & c1 & E1 & TN1 & K1 & T1).
    { intros y Hy. apply I. right; exact Hy. } { split; assumption. } { cbn [tnodes]. rewrite K2. exact ND. } { exact E. }
    exists t1', c1. split; [|split; [exact TN1|]].
    + unfold add_tree_evidence_by at 1. cbn [fst snd]. rewrite G. cbn [rbind]. rewrite AE. cbn [rbind]. rewrite assign_evidence_put, P'. exact E1.
    + cbn [tnodes] in *. rewrite K2 in *. split; [exact K1|]. lia.
Qed.

(** ** Both passes *)
Lemma passes_ok t t1 k ks : dkeys (tnodes t) = k :: ks -> tvalid t = false -> calculate_messages t = (t1, Ok tt) -> tvalid t1 = true ->
  exists ta tb, pull (S (length (tnodes t))) k None t = (ta, Ok tt) /\ push (S (length (tnodes t))) k None ta = (tb, Ok tt) /\ t1 = set_valid true tb.
Proof.
  intros K V E V1. unfold calculate_messages in E. rewrite K in E. cbv zeta in E. set (n := S (length (tnodes t))) in *.
  assert (L1 := pull_by_like fmul marginalize1 finvert t n k None t (conj eq_refl eq_refl)). rewrite pull_same in L1.
  destruct (pull n k None t) as [ta [[]|e]] eqn:EP; cbn [fst] in L1.
  - assert (L2 := push_by_like fmul marginalize1 finvert t n k None ta L1). rewrite push_same in L2. destruct (push n k None ta) as [tb [[]|e]] eqn:EQ; cbn [fst] in L2.
    + inversion E; subst. exists ta, tb. auto.
    + destruct L2 as [_ L2]. destruct e; inversion E; subst; congruence.
  - destruct L1 as [_ L1]. destruct e; inversion E; subst; congruence.
Qed.

Lemma Sm_tot c l : Sm b c l = tot c l + length l * (W + 3).
Proof. unfold Sm, tot, sumn. induction l as [|a l IH]; cbn in *; [reflexivity|]. rewrite IH. lia. Qed.
Lemma Sm_perm c l l' : Permutation l l' -> Sm b c l = Sm b c l'.
Proof. intros P. unfold Sm. apply sumn_perm, Permutation_map, P. Qed.

Lemma passes_near t t' c r sv t1 : jt_ok b t r sv -> tnear c (fun _ _ => 0) t t' -> tvalid t = false -> calculate_messages t = (t1, Ok tt) -> tvalid t1 = true ->
  let m := length (tnodes t) in let T := tot c (dkeys (tnodes t)) + m * (W + 3) in
  exists t1' s, rounded_messages t' = (t1', Ok tt) /\ tnear (fun _ => T + m * (2 * T + W + 3)) s t1 t1'.
Proof.
  intros J TN V E V1. cbv zeta. destruct (jo_root _ _ _ _ J) as (rest & Er). destruct r as [k cs]. cbn [rkey] in Er.
  destruct (passes_ok t t1 k rest Er V E V1) as (ta & tb & EP & EQ & ->).
  assert (ND := jo_nodup _ _ _ _ J). assert (RN := jo_rnodup _ _ _ _ J). assert (NE := jo_ne _ _ _ _ J). assert (AD0 := jo_adj _ _ _ _ J). cbn [rkeys] in RN, NE.
  assert (PM := rkeys_perm b _ _ _ J). assert (LK : length (rkeys (RT k cs)) = length (tnodes t)) by (rewrite (Permutation_length PM); unfold dkeys; apply map_length).
  set (m := length (tnodes t)) in *. set (T := tot c (dkeys (tnodes t)) + m * (W + 3)).
  assert (TS : Sm b c (rkeys (RT k cs)) = T) by (rewrite (Sm_perm _ _ _ PM), Sm_tot; unfold T, m, dkeys; rewrite map_length; reflexivity).
  cbn [rkeys] in TS. unfold Sm in TS. cbn [map sumn fold_right] in TS. change (fold_right Nat.add 0 (map (fun a => c a + W + 3) (flat_map rkeys cs))) with (Sm b c (flat_map rkeys cs)) in TS.
  inversion AD0 as [? ? ? Af Ac]; subst.
  assert (EPc := EP). cbn [pull] in EPc. rewrite Af in EPc. destruct (each (fun x => pull m x (Some k)) (map rkey cs) t) as [tc [[]|e]] eqn:EE; [|discriminate]. inversion EPc; subst tc. clear EPc.
  assert (PN : Forall (pull_near b) cs) by (apply Forall_forall; intros x _; apply pull_all).
  destruct (pull_each b k cs PN m t ta t' c _ TN ND EE Ac RN NE (fun _ _ _ => eq_refl)) as (ta' & ca & sa & EE' & TNa & B1 & B2 & B3 & B4 & B5).
  assert (SK : skel ta = skel t) by (assert (X := skel_pull (S m) k None t); rewrite EP in X; exact X).
  destruct (push_all b (RT k cs) (S m) None ta tb ta' ca sa T T TNa) as (tb' & cb & sb & EQ' & TNb & D1 & D2 & D3 & D4).
  { rewrite (skel_keys _ _ SK). exact ND. } { exact EQ. } { rewrite (skel_adj _ _ SK). exact AD0. } { exact RN. } { cbn [rkey]. lia. }
  { cbn [rkeys rkey]. intros a [<-|Ha] N; [destruct (N eq_refl)|]. specialize (B2 a Ha). lia. }
  { intros a d Ha Hd. destruct (touched_dec k (flat_map rkeys cs) a d) as [Y|Y]; [specialize (B5 a d Y); lia|]. rewrite B4 by exact Y. lia. }
  exists (set_valid true tb'), sb. split.
  - unfold rounded_messages, calculate_messages_by. assert (K' : dkeys (tnodes t') = k :: rest /\ length (tnodes t') = m).
    { assert (F := tn_nodes _ _ _ _ _ TN). unfold m. rewrite <- Er. unfold dkeys. clear - F. induction F as [|p p' l l' (H & _) F [IH1 IH2]]; cbn; [auto|]. rewrite H, IH1, IH2. auto. }
    destruct K' as [-> ->]. cbv zeta. assert (EP' : pull_by rmul rmarg rinvert (S m) k None t' = (ta', Ok tt)).
    { cbn [pull_by]. rewrite (tn_adj _ _ _ _ _ TN), Af, EE'. reflexivity. }
    rewrite EP'. cbn [rkey] in EQ'. rewrite EQ'. reflexivity.
  - destruct TNb as [X1 X2 X3 X4]. split; [exact X1|reflexivity| |exact X4]. cbn [set_valid tnodes].
    eapply cnear_mono; [|exact X3]. intros a Ha. rewrite <- LK. apply D1. apply (Permutation_in _ (Permutation_sym PM)).
    assert (SK2 : skel tb = skel ta) by (assert (X := skel_push (S m) k None ta); cbn [rkey] in EQ; rewrite EQ in X; exact X). rewrite (skel_keys _ _ SK2), (skel_keys _ _ SK) in Ha. exact Ha.
Qed.

(** ** Queries *)
Lemma query_near B s t t' Q f : tnear (fun _ => B) s t t' -> tvalid t = true -> tmarginals t Q = (t, Ok f) ->
  exists f', rounded_tree t' Q = (t', Ok f') /\ near dom (2 * (B + W) + length (data (pot f)) + 1) f f'.
Proof.
  intros [A V N E] VT H. unfold tmarginals in H. rewrite VT in H. unfold rounded_tree, tmarginals_by. rewrite V, VT. inversion H as [H']. clear H.
  assert (FD : forall p, find (fun p => subset Q (cvars (snd p))) (tnodes t) = Some p -> exists p', find (fun p => subset Q (cvars (snd p))) (tnodes t') = Some p' /\ cnear (fun _ => B) p p').
  { clear H'. induction N as [|p p' l l' C N IH]; cbn; [discriminate|]. rewrite (proj1 (proj2 C)). destruct (subset Q (cvars (snd p))); [|exact IH]. intros q Hq; inversion Hq; subst. eauto. }
  destruct (find _ (tnodes t)) as [[k x]|]; [|discriminate]. destruct (FD _ eq_refl) as ([k' x'] & F' & C1 & C2 & C3). rewrite F'. cbn [fst snd] in *. rewrite C2.
  destruct (marginalize (cfac x) (sdiff (cvars x) Q)) as [g|] eqn:G; cbn [rbind] in H'; [|discriminate]. inversion H'; subst f.
  destruct (near_marginalize b _ _ _ _ _ C3 (sdiff_nodup _ _) G) as (g' & G' & NG). rewrite G'. cbn [rbind]. eexists; split; [reflexivity|]. rewrite normalize_size. apply near_norm, NG.
Qed.

Lemma messages_query t t' c r sv ev Q n : jt_ok b t r sv -> tnear c (fun _ _ => 0) t t' -> tvalid t = false -> loaded b t (iweight b ev) ->
  ev_ok b ev -> NoDup Q -> answers t Q -> tot c (dkeys (tnodes t)) <= n ->
  exists t1' f, rounded_messages t' = (t1', Ok tt) /\ rounded_tree t1' Q = (t1', Ok f) /\ rounded_tree t' Q = (t1', Ok f) /\ reports b f Q (potential_at f) /\
    forall q, is_inst b Q q -> close (passing_errors b (length (tnodes t)) Q n) (posterior b ev q) (potential_at f q).
Proof.
  intros J TN V L EV ND A LE. destruct (calculate_calibrates b WB t r sv _ J L) as (t1 & E & S1 & V1 & C).
  destruct (passes_near t t' c r sv t1 J TN V E V1) as (t1' & s & E' & TN1). cbv zeta in TN1.
  assert (J1 : jt_ok b t1 r sv) by (eapply jt_ok_same; [reflexivity|symmetry; exact S1|exact J]).
  destruct (query_posterior b WB ev t1 r sv Q NN EV ND J1 V1 C) as (f & Ef & Rf).
  { apply (in_clique_skel t t1); [symmetry; exact S1|]. apply answers_in_clique, A. }
  destruct (query_near _ _ _ _ _ _ TN1 V1 Ef) as (f' & Ef' & NF). destruct (near_reports b _ _ _ _ _ NF Rf) as [R1 R2].
  exists t1', f'. split; [exact E'|]. split; [exact Ef'|]. split; [|split; [exact R1|]].
  - unfold rounded_tree, tmarginals_by. rewrite (tn_valid _ _ _ _ _ TN), V. fold (rounded_messages t'). rewrite E'.
    unfold rounded_tree, tmarginals_by in Ef'. rewrite (tn_valid _ _ _ _ _ TN1), V1 in Ef'. exact Ef'.
  - intros q Hq. eapply close_mono; [|exact (R2 q Hq)]. rewrite (reports_size b f Q _ ND Rf). unfold passing_errors. cbv zeta.
    set (m := length (tnodes t)). set (x := tot c (dkeys (tnodes t))) in *. nia.
Qed.

Theorem evidence_rounded t r sv ev Q : jt_ok b t r sv -> ev_ok b ev -> incl (dkeys ev) (bnames b) -> NoDup Q -> answers t Q ->
  exists t1 f, rounded_evidence b ev t = (t1, Ok tt) /\ rounded_tree t1 Q = (t1, Ok f) /\ reports b f Q (potential_at f) /\
    forall q, is_inst b Q q -> close (tree_errors b (length (tnodes t)) Q ev) (posterior b ev q) (potential_at f q).
Proof.
  intros J EV K ND A. destruct (reset_loaded b WB t r sv NN J) as (t1 & E1 & S1 & V1 & L1).
  assert (J1 : jt_ok b t1 r sv) by (eapply jt_ok_same; [reflexivity|symmetry; exact S1|exact J]).
  destruct (each_evidence b WB ev ev EV (incl_refl _) K t1 r sv _ J1 L1) as (t2 & E2 & S2 & V2 & L2).
  assert (J2 : jt_ok b t2 r sv) by (eapply jt_ok_same; [reflexivity|symmetry; exact S2|exact J1]).
  destruct (reset_near t t1 (jo_nodup _ _ _ _ J) E1) as (t1' & c1 & E1' & TN1 & _ & K1 & T1).
  destruct (evidence_near ev ev t1 t1' c1 _ t2 EV (incl_refl _) TN1 (jo_nodup _ _ _ _ J1) E2) as (t2' & c2 & E2' & TN2 & K2 & T2).
  assert (LT : length (tnodes t2) = length (tnodes t)). { rewrite <- (map_length fst (tnodes t2)), <- (map_length fst (tnodes t)). change (length (dkeys (tnodes t2)) = length (dkeys (tnodes t))). congruence. }
  destruct (messages_query t2 t2' c2 r sv ev Q (length (bnodes b) + length ev) J2 TN2) as (t3 & f & E3 & Ef & _ & R & C).
  { congruence. } { eapply loaded_ext; [exact L2|]. intros a _. apply iweight_split; assumption. } { exact EV. } { exact ND. }
  { eapply answers_skel; [|exact A]. congruence. } { rewrite K2. lia. }
  exists t3, f. split; [|split; [exact Ef|split; [exact R|]]].
  - unfold rounded_evidence, set_evidence_by. fold (rounded_reset b t). rewrite E1', E2'. exact E3.
  - rewrite LT in C. exact C.
Qed.
End Top.

(** ** Creation, histories *)
Section History.
Context {RD : Rounding} {AD : Adding} {SO : SetOrder}.

Lemma tot_zero l : tot (fun _ => 0) l = 0.
Proof. unfold tot, sumn. induction l; cbn; auto. Qed.

Lemma create_rounded b order o : suits b o -> nonneg_bn b -> order_or_default b order = Ok o ->
  exists t t' r sv c, create_jointree b order = Ok t /\ rounded_jointree b order = Ok t' /\ jt_ok b t r sv /\ jt_ok b t' r sv /\ tvalid t = false /\ loaded b t (tables b) /\
    tnear b c (fun _ _ => 0) t t' /\ tot c (dkeys (tnodes t)) <= length (bnodes b).
Proof.
  intros SU NN EO. destruct (create_ok b o order SU NN EO) as (t & r & sv & E & J & V & L). assert (WB := su_bn _ _ SU). assert (E0 := E).
  unfold create_jointree in E. rewrite EO in E. cbn [rbind] in E. destruct (cluster_seq o (moral_graph b)) as [cs|] eqn:E1; cbn [rbind] in E; [|discriminate].
  destruct (prune cs) as [l|] eqn:E2; cbn [rbind] in E; [|discriminate]. assert (E3 := E). rewrite <- assign_factors_same in E3. destruct (assign_factors_by_skel _ _ _ _ E3) as [SK _].
  assert (ND : NoDup (dkeys (tnodes (build_tree l)))) by (rewrite <- (skel_keys _ _ SK); apply (jo_nodup _ _ _ _ J)).
  assert (CN := clear_near b (build_tree l)). rewrite clear_build in CN.
  destruct (assign_all_near b WB NN _ _ _ _ t CN ND E) as (t' & c & E' & TN & K & T). exists t, t', r, sv, c.
  destruct (assign_factors_by_skel _ _ _ _ E') as [SK' _].
  split; [exact E0|]. split.
  { unfold rounded_jointree, create_jointree_by. rewrite EO. cbn [rbind]. rewrite E1. cbn [rbind]. rewrite E2. exact E'. }
  split; [exact J|]. split; [eapply jt_ok_same; [reflexivity| |exact J]; congruence|]. split; [exact V|]. split; [exact L|]. split; [exact TN|]. rewrite K.
  eapply Nat.le_trans; [exact T|]. rewrite tot_zero. lia.
Qed.

Lemma used_ok b0 t : used b0 t -> exists r sv, jt_ok b0 t r sv.
Proof.
  assert (SAME : forall t t', skel t' = skel t -> (exists r sv, jt_ok b0 t r sv) -> exists r sv, jt_ok b0 t' r sv).
  { intros u u' E (r & sv & J). exists r, sv. eapply jt_ok_same; [reflexivity|symmetry; exact E|exact J]. }
  induction 1 as [order o t EO SU NN E|b ev t U IH|b t U IH|t U IH|Q t U IH].
  - destruct (create_rounded b0 order o SU NN EO) as (t1 & t' & r & sv & c & _ & E' & _ & J & _). rewrite E in E'. inversion E'; subst. eauto.
  - eapply SAME; [|exact IH]. apply set_evidence_by_skel.
  - eapply SAME; [|exact IH]. apply reset_by_skel.
  - eapply SAME; [|exact IH]. apply calculate_by_skel.
  - eapply SAME; [|exact IH]. apply tmarginals_by_skel.
Qed.

Theorem tree_rounded b0 t b ev Q : used b0 t -> same_arcs b0 b -> wf_bn b -> nonneg_bn b -> ev_ok b ev -> incl (dkeys ev) (bnames b) -> NoDup Q -> answers t Q ->
  exists t1 f, rounded_evidence b ev t = (t1, Ok tt) /\ rounded_tree t1 Q = (t1, Ok f) /\ reports b f Q (potential_at f) /\
    forall q, is_inst b Q q -> close (tree_errors b (length (tree_keys t)) Q ev) (posterior b ev q) (potential_at f q).
Proof.
  intros U SA WB NN EV K ND A. destruct (used_ok b0 t U) as (r & sv & J). assert (Jb : jt_ok b t r sv) by (eapply jt_ok_same; [exact (same_arcs_families _ _ SA)|reflexivity|exact J]).
  unfold tree_keys, dkeys. rewrite map_length. exact (evidence_rounded b WB NN t r sv ev Q Jb EV K ND A).
Qed.

Theorem fresh_rounded b order o Q : suits b o -> nonneg_bn b -> order_or_default b order = Ok o -> NoDup Q ->
  exists t, rounded_jointree b order = Ok t /\ (answers t Q -> exists f, snd (rounded_tree t Q) = Ok f /\ reports b f Q (potential_at f) /\
    forall q, is_inst b Q q -> close (tree_errors b (length (tree_keys t)) Q []) (posterior b [] q) (potential_at f q)).
Proof.
  intros SU NN EO ND. destruct (create_rounded b order o SU NN EO) as (t & t' & r & sv & c & E & E' & J & J' & V & L & TN & T). assert (WB := su_bn _ _ SU). exists t'. split; [exact E'|]. intros A.
  assert (SK : length (tnodes t) = length (tree_keys t')).
  { assert (F := tn_nodes _ _ _ _ _ TN). unfold tree_keys, dkeys. rewrite map_length. exact (forall2_length _ _ _ _ _ F). }
  destruct (messages_query b WB NN t t' c r sv [] Q (length (bnodes b) + length (@nil (string * evid))) J TN V) as (t1 & f & _ & _ & Ef & R & C).
  { eapply loaded_ext; [exact L|]. intros a _. apply iweight_nil, WB. } { apply ev_nil. } { exact ND. }
  { assert (KV : forall k, tree_vars t k = tree_vars t' k /\ (In k (tree_keys t) <-> In k (tree_keys t'))).
    { intros k. assert (F := tn_nodes _ _ _ _ _ TN). unfold tree_vars, tree_keys, dkeys. clear - F. induction F as [|[k1 x1] [k2 x2] l l' (H1 & H2 & _) F IH]; cbn in *; [tauto|]. subst k2.
      destruct (String.eqb k k1); [rewrite H2|]; tauto. }
    destruct A as (k & A1 & A2). exists k. rewrite (proj1 (KV k)). split; [apply KV, A1|exact A2]. }
  { lia. }
  exists f. rewrite Ef. split; [reflexivity|]. split; [exact R|]. rewrite SK in C. exact C.
Qed.

(** At most as many cliques as variables. *)
Lemma cremove_length c l : length (cremove c l) <= length l.
Proof. induction l as [|d l IH]; cbn; [lia|]. destruct (lseqb c d); cbn; lia. Qed.
Lemma cremove_hit c l i : cindex c l = Some i -> S (length (cremove c l)) = length l.
Proof.
  revert i. induction l as [|d l IH]; intros i; cbn; [discriminate|]. destruct (lseqb c d); [reflexivity|]. destruct (cindex c l) as [j|]; [|discriminate]. intros _. cbn. rewrite (IH j eq_refl). reflexivity.
Qed.
Lemma insert_length {A} i (x : A) l : length (list_insert i x l) <= S (length l).
Proof. revert l. induction i as [|i IH]; intros [|y l]; cbn; try lia. specialize (IH l). lia. Qed.
Lemma prune_length l l' : prune l = Ok l' -> length l' <= length l.
Proof.
  unfold prune. generalize (swaps l) as w. intros w. revert l. induction w as [|p w IH]; intros l E; cbn [foldM] in E; [inversion E; lia|].
  destruct (swap1 l p) as [l2|] eqn:SW; cbn [rbind] in E; [|discriminate]. unfold swap1 in SW. destruct (cindex (fst p) l) as [i|] eqn:C; [|discriminate]. inversion SW; subst l2. apply IH in E. assert (H1 := cremove_hit _ _ _ C). assert (H2 := insert_length i (snd p) (cremove (fst p) l)).
  assert (H3 := cremove_length (snd p) (list_insert i (snd p) (cremove (fst p) l))). lia.
Qed.
Lemma cluster_length o : forall g cs, cluster_seq o g = Ok cs -> length cs = length o.
Proof.
  induction o as [|v o IH]; intros g cs E; cbn [cluster_seq] in E; [inversion E; reflexivity|]. destruct (dmem v g); [|discriminate]. destruct (cluster_seq o _) as [r|] eqn:R; cbn [rbind] in E; [|discriminate]. inversion E; cbn. rewrite (IH _ _ R). reflexivity.
Qed.
Lemma dset_length {A} k (v : A) d : length (dset k v d) <= S (length d).
Proof. induction d as [|[k' v'] d IH]; cbn; [lia|]. destruct (String.eqb k k'); cbn; lia. Qed.
Lemma build_length l : length (tnodes (build_tree l)) <= length l.
Proof.
  induction l as [|c l IH]; cbn; [lia|]. assert (D := dset_length (key_of c) (mkC c (trivial 1%Qc)) (tnodes (build_tree l))).
  destruct (jprop c l) as [|x y]; cbn; [lia|]. destruct (find _ l); cbn; lia.
Qed.

Lemma used_skel b0 t : used b0 t -> exists order o l cs, order_or_default b0 order = Ok o /\ suits b0 o /\ cluster_seq o (moral_graph b0) = Ok cs /\ prune cs = Ok l /\ skel t = skel (build_tree l).
Proof.
  induction 1 as [order o t EO SU NN E|b ev t U IH|b t U IH|t U IH|Q t U IH];
    try (destruct IH as (order & o & l & cs & H1 & H2 & H3 & H4 & H5); exists order, o, l, cs; repeat (split; [assumption|]); rewrite <- H5).
  - unfold rounded_jointree, create_jointree_by in E. rewrite EO in E. cbn [rbind] in E. destruct (cluster_seq o (moral_graph b0)) as [cs|] eqn:E1; cbn [rbind] in E; [|discriminate].
    destruct (prune cs) as [l|] eqn:E2; cbn [rbind] in E; [|discriminate]. destruct (assign_factors_by_skel _ _ _ _ E) as [SK _]. exists order, o, l, cs. auto.
  - apply set_evidence_by_skel. - apply reset_by_skel. - apply calculate_by_skel. - apply tmarginals_by_skel.
Qed.

Lemma used_size b0 t : used b0 t -> length (tree_keys t) <= length (bnodes b0).
Proof.
  intros U. destruct (used_skel b0 t U) as (order & o & l & cs & _ & SU & H3 & H4 & H5). unfold tree_keys. rewrite (skel_keys _ _ H5). unfold dkeys. rewrite map_length.
  assert (P := su_perm _ _ SU). apply Permutation_length in P. unfold bnames in P. rewrite map_length in P. rewrite P. rewrite <- (cluster_length _ _ _ H3).
  eapply Nat.le_trans; [apply build_length|]. apply prune_length, H4.
Qed.
End History.
