(** Expected utilities and decisions in rounded arithmetic. *)
From Verif Require Import Base BaseFacts NDArray NDArrayFacts SumCalc Factor FactorFacts FactorSpec FactorProofs Exact Spec SpecFacts Node Network NetSpec NetFacts NetInv
  NetView NetTable MCSpec Decision DecSpec DecInv DecVE DecView DecNorm DecFacts DecOpt
  Rounded RoundedSpec RoundedProof RoundedTree RoundedDec RoundedDecSpec RoundedDecPure RoundedDecProof.
From Coq Require Import Field.

Lemma le_shift a b c d : (a <= b -> d - c = b - a -> c <= d)%Qc.
Proof. intros L E. apply Qcle_minus_iff in L. apply Qcle_minus_iff. unfold Qcminus in E. rewrite E. exact L. Qed.

(** ** Elimination from unrounded factors *)
Definition init (j : jfactor) : tj := mkTJ j (feval (fst j)) (feval (snd j)) (fun a => magnitude (feval (snd j) a)) 0 0.
Definition AA (l : list jfactor) (a : asg) : Qc := qsum (map (fun f => magnitude (feval (snd f) a)) l).

Lemma AA_app l l' a : AA (l ++ l') a = (AA l a + AA l' a)%Qc.
Proof. unfold AA. rewrite map_app. apply qsum_app. Qed.
Lemma tf_init l : map tf (map init l) = l.
Proof. rewrite map_map. apply map_id. Qed.
Lemma PG_init l a : PG (map init l) a = PP l a.
Proof. unfold PG, PP. rewrite map_map. reflexivity. Qed.
Lemma SGu_init l a : SG gu (map init l) a = UU l a.
Proof. unfold SG, UU. rewrite map_map. reflexivity. Qed.
Lemma SGa_init l a : SG ga (map init l) a = AA l a.
Proof. unfold SG, AA. rewrite map_map. reflexivity. Qed.
Lemma cnt_init l : cnt (map init l) = length l.
Proof. unfold cnt. rewrite map_map. unfold sumn. induction l as [|x l IH]; [reflexivity|]. cbn in *. rewrite IH. reflexivity. Qed.

Section VE.
Variable dom : string -> list string.
Variable vars : list string.
Context {RD : Rounding} {SY : Symmetric RD} {AD : Adding} {SO : SetOrder} {BO : BagOrder}.
Notation card := (card dom).
Notation rcombine := (combine_factors_by rmul raddf).
Notation reliminate := (eliminate_by rmul raddf rmarg rinvert).
Notation rVE := (generalized_VE_by rmul raddf rmarg rinvert).

Lemma tracked_init j : wf_jf dom vars j -> tracked dom vars (init j).
Proof.
  intros W. constructor; cbn [init tf gp gu ga nj nk].
  - exact W.
  - intros a R. apply close_refl. apply (wj_nonneg _ _ _ W a R).
  - intros a R. apply tri_refl.
  - apply feval_deps.
  - intros a c E. apply feval_deps. intros v Hv. apply E, (wj_scope _ _ _ W), Hv.
  - intros a c E. f_equal. apply feval_deps. intros v Hv. apply E, (wj_scope _ _ _ W), Hv.
Qed.

(** A factor that mentions no eliminated variable stays in the working set. *)
Lemma reliminate_frame vs r : (forall v, In v vs -> ~ In v (vorder (fst r))) -> forall k l1 l2 l',
  reliminate k (l1 ++ l2) vs = Ok l' -> exists m1 m2, l' = m1 ++ m2 /\ reliminate k (l1 ++ r :: l2) vs = Ok (m1 ++ r :: m2).
Proof.
  induction vs as [|v vs IH]; intros N k l1 l2 l' E.
  - injection E as <-. exists l1, l2. split; reflexivity.
  - cbn [eliminate_by] in *. assert (M : mem v (vorder (fst r)) = false) by (apply mem_nIn, N; left; reflexivity).
    rewrite !filter_app in *. cbn [filter]. rewrite M. cbn [negb].
    destruct (combine_factors_by rmul raddf _) as [t|]; [|discriminate]. cbn [rbind] in *.
    destruct (marginalize_joint_by rmul rmarg rinvert t v) as [m|]; [|discriminate]. cbn [rbind] in *.
    rewrite <- app_assoc in E. rewrite <- app_assoc. cbn [app]. apply IH; [|exact E]. intros u Hu. apply N. right; exact Hu.
Qed.

(** The factors of [l1 ++ l2] are eliminated, those of [fr] (at most one) stay. *)
Lemma rVE_ok vs l1 fr l2 : NoDup vs -> incl vs vars -> Forall (wf_jf dom vars) (l1 ++ fr ++ l2) -> l1 ++ l2 <> [] \/ fr <> [] ->
  (forall v, In v vs -> covered (l1 ++ l2) v) -> length fr <= 1 ->
  (forall f v, In f fr -> In v vs -> ~ In v (vorder (fst f))) ->
  (forall f a, In f fr -> inrange card vars a -> feval (snd f) a = 0%Qc) ->
  (exists a, inrange card vars a /\ sum_over card vs (PP (l1 ++ l2)) a <> 0%Qc) ->
  exists r, rVE (l1 ++ fr ++ l2) vs = Ok r /\ wf_jf dom vars r /\
    (forall v, In v (vorder (fst r)) <-> (covered (l1 ++ l2) v /\ ~ In v vs) \/ covered fr v) /\
    forall a, inrange card vars a -> sum_over card vs (PP (l1 ++ l2)) a <> 0%Qc ->
      tri (length (l1 ++ fr ++ l2) + length vs * (2 * (length (l1 ++ l2) + sumn (map card vs)) + 1))
          (sum_over card vs (fun b => PP (l1 ++ l2) b * UU (l1 ++ l2) b) a / sum_over card vs (PP (l1 ++ l2)) a)%Qc
          (sum_over card vs (fun b => PP (l1 ++ l2) b * AA (l1 ++ l2) b) a / sum_over card vs (PP (l1 ++ l2)) a)%Qc
          (feval (snd r) a).
Proof.
  intros ND IV W NE C LF FV FU NZ. set (E := l1 ++ l2) in *.
  apply Forall_app in W as [W1 W']. apply Forall_app in W' as [WF W2].
  assert (WE : Forall (wf_jf dom vars) E) by (apply Forall_app; auto).
  assert (TI : forall l, Forall (wf_jf dom vars) l -> Forall (tracked dom vars) (map init l)).
  { intros l Wl. apply Forall_forall. intros t Ht. apply in_map_iff in Ht as (j & <- & Hj). rewrite Forall_forall in Wl. apply tracked_init, Wl, Hj. }
  assert (KI : forall l K, Forall (fun t => nk t <= K) (map init l)).
  { intros l K. apply Forall_forall. intros t Ht. apply in_map_iff in Ht as (j & <- & _). cbn. lia. }
  assert (EL : exists l' K', reliminate 0 E vs = Ok (map tf l') /\ Forall (tracked dom vars) l' /\ Forall (fun t => nk t <= K') l' /\ (E <> [] -> l' <> []) /\
    (forall v, covered (map tf l') v <-> covered E v /\ ~ In v vs) /\
    K' + length l' <= length E + length vs * (2 * (length E + sumn (map card vs)) + 1) /\
    forall a, inrange card vars a -> PG l' a = sum_over card vs (PP E) a /\
       (PG l' a * SG gu l' a)%Qc = sum_over card vs (fun b => PP E b * UU E b)%Qc a /\
       (PG l' a * SG ga l' a)%Qc = sum_over card vs (fun b => PP E b * AA E b)%Qc a).
  { assert (DE : E = [] \/ E <> []) by (destruct E; [left; reflexivity|right; discriminate]). destruct DE as [Z|NZE].
    - rewrite Z in *. assert (vs = []) as ->.
      { destruct vs as [|v vs']; [reflexivity|]. destruct (C v (or_introl eq_refl)) as (f & [] & _). }
      exists [], 0. split; [reflexivity|]. split; [constructor|]. split; [constructor|]. split; [congruence|]. split; [cbn; tauto|]. split; [cbn; lia|].
      intros a R. repeat split.
    - destruct (reliminate_ok dom vars vs ND IV 0 (map init E) 0 (TI E WE) (KI E 0)) as (l' & K' & El & Wl & Kl & NEl & Cl & Bl & Vl).
      + rewrite tf_init. exact C.
      + destruct NZ as (a & R & NZ). exists a. split; [exact R|]. intros Z. apply NZ. rewrite <- Z. apply sum_over_ext_in. intros b _ _. symmetry. apply PG_init.
      + destruct E; [contradiction|discriminate].
      + rewrite tf_init in El, Cl. rewrite map_length, cnt_init in Bl. exists l', K'. split; [exact El|]. split; [exact Wl|]. split; [exact Kl|]. split; [intros _; exact NEl|].
        split; [exact Cl|]. split; [exact Bl|]. intros a R. destruct (Vl a R) as (A & B & D).
        split; [rewrite A|split; [rewrite B|rewrite D]]; apply sum_over_ext_in; intros b _ _; rewrite ?PG_init, ?SGu_init, ?SGa_init; reflexivity. }
  destruct EL as (l' & K' & El & Wl & Kl & NEl & Cl & Bl & Vl).
  assert (FRM : exists L, reliminate 0 (l1 ++ fr ++ l2) vs = Ok (map tf L) /\ Permutation L (map init fr ++ l')).
  { destruct fr as [|f [|f2 fr']]; [exists l'; split; [exact El|apply Permutation_refl]| |cbn in LF; lia].
    destruct (reliminate_frame vs f (fun v Hv => FV f v (or_introl eq_refl) Hv) 0 l1 l2 _ El) as (m1 & m2 & Em & Ef).
    apply map_eq_app in Em as (a & b & -> & Ea & Eb). exists (a ++ init f :: b). split.
    - rewrite map_app. cbn [map init tf]. rewrite Ea, Eb. exact Ef.
    - cbn [map app]. apply Permutation_sym, Permutation_middle. }
  destruct FRM as (L & EL & PL).
  assert (WL : Forall (tracked dom vars) L) by (eapply Permutation_Forall; [apply Permutation_sym, PL|apply Forall_app; auto]).
  assert (KL : Forall (fun t => nk t <= K') L) by (eapply Permutation_Forall; [apply Permutation_sym, PL|apply Forall_app; auto]).
  assert (NL : L <> []).
  { intros ->. apply Permutation_nil in PL. apply app_eq_nil in PL as [P1 P2]. destruct NE as [N|N]; [apply (NEl N P2)|]. destruct fr; [contradiction|discriminate]. }
  destruct (rcombine_ok dom vars (length vs) L K' WL KL NL) as (r & Er & Wr & Or).
  exists r. unfold generalized_VE_by. rewrite EL. cbn [rbind]. split; [exact Er|]. split; [exact (tk_wf _ _ _ Wr)|]. split.
  - intros v. rewrite Or, <- Cl. split.
    + intros (f & Hf & Hv). apply in_map_iff in Hf as (t & <- & Ht). apply (Permutation_in _ PL) in Ht. apply in_app_or in Ht as [Ht|Ht].
      * right. apply in_map_iff in Ht as (g & <- & Hg). exists g. split; [exact Hg|exact Hv].
      * left. exists (tf t). split; [apply in_map, Ht|exact Hv].
    + intros [(f & Hf & Hv)|(f & Hf & Hv)]; exists f; (split; [|exact Hv]).
      * apply in_map_iff in Hf as (t & <- & Ht). apply in_map. apply (Permutation_in _ (Permutation_sym PL)), in_or_app. right; exact Ht.
      * change f with (tf (init f)). apply in_map. apply (Permutation_in _ (Permutation_sym PL)), in_or_app. left. apply in_map, Hf.
  - intros a R N. destruct (Vl a R) as (A & B & D). assert (TU := tk_u _ _ _ Wr a R). cbn [tf gu ga nk] in TU.
    assert (SZ : forall X, (forall f, In f fr -> X (init f) a = 0%Qc) -> SG X L a = SG X l' a).
    { intros X HX. rewrite (SG_perm X _ _ a PL), SG_app. replace (SG X (map init fr) a) with 0%Qc; [ring|]. unfold SG. rewrite map_map. clear -HX.
      induction fr as [|f l IH]; [reflexivity|]. cbn [map qsum]. rewrite <- IH by (intros g Hg; apply HX; right; exact Hg). rewrite (HX f (or_introl eq_refl)). ring. }
    rewrite (SZ gu) in TU by (intros f Hf; apply (FU f a Hf R)).
    rewrite (SZ ga) in TU by (intros f Hf; cbn; rewrite (FU f a Hf R); reflexivity).
    apply (tri_mono (K' + pred (length L))).
    + assert (LL := Permutation_length PL). rewrite app_length, map_length in LL. revert Bl.
      generalize (length vs * (2 * (length E + sumn (map card vs)) + 1)). intros M Bl. unfold E in Bl. rewrite !app_length in *. destruct L; [contradiction|]. cbn [length pred] in *. lia.
    + rewrite <- B, <- D, <- A. rewrite A.
      replace (sum_over card vs (PP E) a * SG gu l' a / sum_over card vs (PP E) a)%Qc with (SG gu l' a) by (field; exact N).
      replace (sum_over card vs (PP E) a * SG ga l' a / sum_over card vs (PP E) a)%Qc with (SG ga l' a) by (field; exact N). exact TU.
Qed.
End VE.

(** ** The factors of a network *)
Section Net.
Variable w : dworld.
Hypothesis I : dinv w.
Hypothesis T : dtidy w.
Hypothesis NN : nonneg_bn (dbn w).
Context {RD : Rounding} {SY : Symmetric RD} {AD : Adding} {SO : SetOrder} {BO : BagOrder}.
Notation dom := (values_of (dbn w)).
Notation vars := (bnames (dbn w)).
Notation card := (card dom).
Notation rVE := (generalized_VE_by rmul raddf rmarg rinvert).

Lemma net_sizes l : incl l (dlook w) -> forall js, mapM (fun p => let* n := hget (dheap w) (snd p) in joint_factor (dheap w) n) l = Ok js ->
  length js = length l /\ forall a, inrange card vars a ->
    AA js a = qsum (map (fun n => magnitude (aget (tarr (ncpd n)) (map a (nporder n)))) (filter is_utility (map (fun p => deref (dheap w) (snd p)) l))).
Proof.
  induction l as [|(v & i) l IH]; intros S js E.
  - injection E as <-. split; [reflexivity|]. intros a R. reflexivity.
  - assert (D : dget v (dlook w) = Some i) by (apply In_dget; [apply I|apply S; left; reflexivity]).
    destruct (di_named w I v i D) as (n & Hn & Nn & _).
    destruct (joint_factor_ok w I T NN v i n (conj D Hn)) as (j & Ej & Wj & Oj & Vj).
    cbn [mapM snd] in E. unfold hget at 1 in E. rewrite Hn in E. cbn [rbind] in E. rewrite Ej in E. cbn [rbind] in E.
    destruct (mapM _ l) as [js'|] eqn:El; [|discriminate]. cbn [rbind] in E. injection E as <-.
    destruct (IH (fun x Hx => S x (or_intror Hx)) js' eq_refl) as [LE A]. split; [cbn; rewrite LE; reflexivity|].
    intros a R. cbn [map snd]. rewrite (deref_ok _ _ _ Hn). unfold AA. cbn [map qsum filter]. fold (AA js' a). rewrite (A a R), (proj2 (Vj a R)). unfold uterm.
    destruct (is_utility n); cbn [map qsum]; [reflexivity|]. change (magnitude 0) with 0%Qc. ring.
Qed.

Definition iabs (a : asg) : Qc :=
  qsum (map (fun n => magnitude (aget (tarr (ncpd n)) (map a (nporder n)))) (filter is_utility (map (fun p => deref (dheap w) (snd p)) (dlook w)))).

Lemma iabs_deps : deps vars iabs.
Proof.
  intros a c E. unfold iabs. apply qsum_map_ext. intros n Hn. do 2 f_equal. apply map_ext_in. intros q Iq. apply E.
  apply filter_In in Hn as [Hn _]. apply in_map_iff in Hn as ((v & i) & En & Hp). cbn in En.
  apply In_dget in Hp; [|apply I]. destruct (di_named w I v i Hp) as (m & A & _). rewrite (deref_ok _ _ _ A) in En. subst m.
  apply (parent_dvals w I T v i n q (conj Hp A) Iq).
Qed.
Lemma iabs_ext : ext iabs.
Proof. eapply deps_ext, iabs_deps. Qed.

Lemma sizes_state a : inrange card vars a -> utility_sizes w (state_of (bvars (dbn w)) a) = iabs a.
Proof.
  intros R. unfold utility_sizes, iabs, dutils, dobjects. rewrite map_map. apply qsum_map_ext. intros n Hn.
  apply filter_In in Hn as [Hn U]. apply in_map_iff in Hn as ((v & i) & E & Hp). cbn in E.
  apply In_dget in Hp; [|apply I]. destruct (di_named w I v i Hp) as (m & A & B & _). rewrite (deref_ok _ _ _ A) in E. subst m.
  assert (H : dholds w v i n) by (split; assumption). unfold utility. rewrite (dshown w I v i n H), map_map. cbn [fst snd snapshot_node dn_cpd].
  do 2 f_equal. apply map_ext_in. intros q Iq. destruct (parent_dvals w I T v i n q H Iq) as [Eq Nq].
  rewrite (look_state_of (bvars (dbn w)) a q (dom q)).
  - rewrite Eq, position_idx. apply idx_nth.
    + destruct (dparent w I v i n q H Iq) as (o & x & Hx & Kx & _). rewrite (dvals_holds w q o x Hx).
      apply (T q o x Hx (has_not_utility_kind x Kx)).
    + rewrite <- Eq. apply R, Nq.
  - rewrite (bnames_bvars (dbn w)). apply dbn_wf; assumption.
  - apply (bvars_in (dbn w) (dbn_wf w I T) q Nq).
Qed.

Lemma cards_eq : map card vars = map (fun d => length (dn_values d)) (bnodes (dbn w)).
Proof. unfold bnames. rewrite map_map. apply map_ext_in. intros d Hd. unfold FactorFacts.card. rewrite (values_of_node (dbn w) (dbn_wf w I T) d Hd). reflexivity. Qed.

Lemma sumn_filter (P : string -> bool) l : sumn (map card (filter P l)) <= sumn (map card l).
Proof. unfold sumn. induction l as [|x l IH]; [apply le_n|]. cbn. destruct (P x); cbn; lia. Qed.

Lemma errors_bound n m vs P : n <= length (dlook w) -> m <= length (dlook w) -> vs = filter P vars ->
  n + length vs * (2 * (m + sumn (map card vs)) + 1) <= utility_errors w.
Proof.
  intros A B ->. unfold utility_errors. rewrite <- cards_eq, map_length. assert (S1 := sumn_filter P vars).
  assert (L : length (filter P vars) <= length vars) by (clear; induction vars as [|x l IH]; [apply le_n|]; cbn; destruct (P x); cbn; lia).
  apply Nat.add_le_mono; [exact A|]. apply Nat.mul_le_mono; [exact L|]. lia.
Qed.

Lemma rcurrent_utility : dlook w <> [] -> plan_sum w [] (fun _ => 1%Qc) <> 0%Qc -> exists y,
  (let* fs := net_factors w in let* r := rVE fs (chance_names w) in Ok (pot (snd r))) = Ok (scalar y) /\
  tri (utility_errors w) (plan_value w []) (plan_scale w []) y.
Proof.
  intros NL NZ. destruct (net_factors_ok w I T NN) as (js & E & W & C & NE & V). rewrite E. cbn [rbind].
  destruct (net_sizes (dlook w) (incl_refl _) js E) as [LJ VA].
  rewrite (chance_names_eq w I). destruct (some_range w I T) as (a0 & R0).
  assert (SP : forall a, inrange card vars a -> sum_over card vars (PP js) a = plan_sum w [] (fun _ => 1%Qc)).
  { intros a R. rewrite (plan_all_ix w _ (fun _ => 1%Qc) a I T); try (repeat intro; reflexivity).
    apply sum_over_ext_in. intros c Rc Ec. rewrite (proj1 (V c Rc)). ring. }
  assert (SU : forall a, inrange card vars a -> sum_over card vars (fun b => PP js b * UU js b)%Qc a = plan_sum w [] (utilities w)).
  { intros a R. rewrite (plan_all_ix w _ (iutil w) a I T (iutil_ext w) (utilities_state w I T) (iutil_deps w I T)).
    apply sum_over_ext_in. intros c Rc Ec. destruct (V c Rc) as [-> ->]. ring. }
  assert (SA : forall a, inrange card vars a -> sum_over card vars (fun b => PP js b * AA js b)%Qc a = plan_sum w [] (utility_sizes w)).
  { intros a R. rewrite (plan_all_ix w _ iabs a I T iabs_ext sizes_state iabs_deps).
    apply sum_over_ext_in. intros c Rc Ec. rewrite (proj1 (V c Rc)), (VA c Rc). reflexivity. }
  destruct (rVE_ok dom vars vars js [] []) as (r & Er & Wr & Or & Vr); rewrite ?app_nil_r in *.
  - apply (dbn_wf w I T). - apply incl_refl. - exact W. - left. apply NE, NL. - apply C. - cbn; lia. - intros f v []. - intros f a [].
  - exists a0. split; [exact R0|]. rewrite (SP a0 R0). exact NZ.
  - cbn [app] in Er, Vr. rewrite ?app_nil_r in Er, Vr. rewrite Er. cbn [rbind].
    assert (O : vorder (snd r) = []).
    { destruct (vorder (snd r)) as [|v l] eqn:Ev; [reflexivity|]. assert (Hv : In v (vorder (fst r))) by (apply (wj_scope _ _ _ Wr); rewrite Ev; left; reflexivity).
      apply Or in Hv as [[Cv Nv]|(f & [] & _)]. exfalso. apply Nv, C, Cv. }
    exists (feval (snd r) a0). split.
    + assert (WU := wj_u _ _ _ Wr). rewrite (wfa_rank0 (pot (snd r))); [|apply WU|rewrite (wf_shape _ _ WU), O; reflexivity].
      unfold feval. rewrite O. reflexivity.
    + specialize (Vr a0 R0). rewrite (SP a0 R0), (SU a0 R0), (SA a0 R0) in Vr. eapply tri_mono; [|exact (Vr NZ)].
      apply (errors_bound _ _ vars (fun _ => true)); [lia|lia|]. clear. induction vars as [|x l IH]; [reflexivity|]. cbn. rewrite <- IH. reflexivity.
Qed.

(** One decision open. *)
Variables (v : string) (i : oid) (n : node).
Hypothesis H : dholds w v i n.
Hypothesis K : nkind n = KDecision.
Hypothesis P0 : nporder n = [].

Lemma rlocal_values : (forall d, In d (nvalues n) -> plan_sum w [(v, d)] (fun _ => 1%Qc) <> 0%Qc) ->
  exists js r, net_factors w = Ok js /\ rVE js (others (dbn w) [v]) = Ok r /\ wf_factor dom (snd r) /\ vorder (snd r) = [v] /\
    forall d, In d (nvalues n) -> tri (utility_errors w) (plan_value w [(v, d)]) (plan_scale w [(v, d)]) (feval (snd r) (fun _ => idx d (nvalues n))).
Proof.
  intros NZ. destruct (split_look w I v i n H) as (L1 & L2 & EL & N1 & N2).
  assert (S1 : incl L1 (dlook w)) by (rewrite EL; intros x Hx; apply in_or_app; left; exact Hx).
  assert (S2 : incl L2 (dlook w)) by (rewrite EL; intros x Hx; apply in_or_app; right; right; exact Hx).
  destruct (net_factors_list w I T NN L1 S1) as (j1 & E1 & W1 & C1 & V1 & _ & P1).
  destruct (net_factors_list w I T NN L2 S2) as (j2 & E2 & W2 & C2 & V2 & _ & P2).
  destruct (net_sizes L1 S1 j1 E1) as [Q1 A1]. destruct (net_sizes L2 S2 j2 E2) as [Q2 A2].
  destruct (joint_factor_ok w I T NN v i n H) as (j & Ej & Wj & Oj & Vj).
  assert (NU := not_utility n K).
  assert (ENF : net_factors w = Ok (j1 ++ j :: j2)).
  { unfold net_factors. rewrite EL, mapM_app, E1. cbn [rbind mapM snd]. unfold hget at 1. rewrite (proj2 H). cbn [rbind]. rewrite Ej. cbn [rbind].
    rewrite E2. reflexivity. }
  assert (SCJ : forall u, In u (vorder (fst j)) <-> u = v).
  { intros u. rewrite Oj, P0. split; [intros [[_ X]|[]]; exact X|]. intros ->. left. split; [exact NU|reflexivity]. }
  set (vs := others (dbn w) [v]). assert (NDV : NoDup vs) by (apply NoDup_filter, (dbn_wf w I T)).
  assert (IVV : incl vs vars) by (intros u Hu; apply others_In in Hu; tauto).
  assert (NV : forall u, In u vs -> ~ In u (vorder (fst j))).
  { intros u Hu X. apply SCJ in X. subst u. apply others_In in Hu. apply (proj2 Hu). left; reflexivity. }
  set (E := j1 ++ j2). assert (WE : Forall (wf_jf dom vars) E) by (apply Forall_app; auto).
  assert (CE : forall u, In u vs -> covered E u).
  { intros u Hu. apply others_In in Hu as [Hu Nu]. apply in_map_iff in Hu as (d & Ed & Hd). apply (dobj_In w I) in Hd as (u' & k & m & Hm & Um & ->).
    cbn [snapshot_node dn_name] in Ed. rewrite (dnamed w I u' k m Hm) in Ed. subst u'. apply negb_true_iff in Um.
    assert (X := proj1 Hm). apply dget_In in X. rewrite EL in X. apply in_app_or in X as [X|[X|X]].
    - destruct (C1 u k m X Hm Um) as (f & Hf & Hu'). exists f. split; [apply in_or_app; left; exact Hf|exact Hu'].
    - injection X as -> _. exfalso. apply Nu. left; reflexivity.
    - destruct (C2 u k m X Hm Um) as (f & Hf & Hu'). exists f. split; [apply in_or_app; right; exact Hf|exact Hu']. }
  assert (EO : filter (fun n => negb (mem (dn_name n) [v])) (bnodes (dbn w)) =
     map (fun p => snapshot_node (dheap w) (deref (dheap w) (snd p))) (filter (fun p => negb (is_utility (deref (dheap w) (snd p)))) (L1 ++ L2))).
  { unfold dbn. cbn [bnodes]. rewrite objects_old, filter_map_comm. f_equal. rewrite filter_filter, EL, !filter_app. cbn [filter].
    cbn [snd snapshot_node dn_name]. rewrite (deref_ok _ _ _ (proj2 H)), (dnamed w I v i n H).
    replace (mem v [v]) with true by (cbn; rewrite String.eqb_refl; reflexivity). rewrite andb_false_r.
    assert (G : forall L, incl L (dlook w) -> ~ In v (map fst L) ->
      filter (fun x => negb (is_utility (deref (dheap w) (snd x))) && negb (mem (nname (deref (dheap w) (snd x))) [v])) L =
      filter (fun p => negb (is_utility (deref (dheap w) (snd p)))) L).
    { intros L SL NL. apply filter_ext_in. intros (u & k) Hu. cbn [snd]. assert (D := SL _ Hu). apply In_dget in D; [|apply I].
      destruct (di_named w I u k D) as (m & A & B & _). rewrite (deref_ok _ _ _ A), B. cbn. rewrite eqb_neq_s; [apply andb_true_r|].
      intros ->. apply NL. exact (in_map fst _ _ Hu). }
    rewrite (G L1 S1 N1), (G L2 S2 N2). reflexivity. }
  assert (PE : forall a, inrange card vars a -> PP E a = rest w v a).
  { intros a R. unfold E. rewrite PP_app. destruct (P1 a R) as [-> _]. destruct (P2 a R) as [-> _]. unfold rest. rewrite EO, filter_app, map_app, map_app, qprod_app.
    rewrite !(filter_map_comm (fun p => deref (dheap w) (snd p))), !map_map. reflexivity. }
  assert (UE : forall a, inrange card vars a -> UU E a = iutil w a).
  { intros a R. unfold E. rewrite UU_app. destruct (P1 a R) as [_ ->]. destruct (P2 a R) as [_ ->]. unfold iutil. rewrite EL, map_app. cbn [map snd].
    rewrite filter_app. cbn [filter]. rewrite (deref_ok _ _ _ (proj2 H)), NU, map_app, qsum_app. reflexivity. }
  assert (AE : forall a, inrange card vars a -> AA E a = iabs a).
  { intros a R. unfold E. rewrite AA_app, (A1 a R), (A2 a R). unfold iabs. rewrite EL, map_app. cbn [map snd].
    rewrite filter_app. cbn [filter]. rewrite (deref_ok _ _ _ (proj2 H)), NU, map_app, qsum_app. reflexivity. }
  assert (TOP : forall d a, In d (nvalues n) -> inrange card vars a ->
    sum_over card vs (PP E) (at_value v n d a) = plan_sum w [(v, d)] (fun _ => 1%Qc) /\
    sum_over card vs (fun b => PP E b * UU E b)%Qc (at_value v n d a) = plan_sum w [(v, d)] (utilities w) /\
    sum_over card vs (fun b => PP E b * AA E b)%Qc (at_value v n d a) = plan_sum w [(v, d)] (utility_sizes w)).
  { intros d a Id R. rewrite (plan_rest w I T v i n H K d a _ (fun _ => 1%Qc) Id) by (repeat intro; reflexivity).
    rewrite (plan_rest w I T v i n H K d a _ (iutil w) Id (utilities_state w I T) (iutil_deps w I T)).
    rewrite (plan_rest w I T v i n H K d a _ iabs Id sizes_state iabs_deps). fold vs.
    assert (RR : forall b, inrange card vs b -> (forall u, ~ In u vs -> b u = at_value v n d a u) -> inrange card vars b).
    { intros b Rb Eb u Hu. destruct (In_dec_s u vs) as [X|X]; [apply Rb, X|]. rewrite (Eb u X). apply (at_range w I T v i n H K); assumption. }
    split; [|split]; apply sum_over_ext_in; intros b Rb Eb; rewrite (PE b (RR b Rb Eb)); [ring|rewrite (UE b (RR b Rb Eb)); reflexivity|rewrite (AE b (RR b Rb Eb)); reflexivity]. }
  destruct (some_range w I T) as (a0 & R0).
  assert (NEV : nvalues n <> []) by (apply (T v i n H); congruence).
  assert (exists d0, In d0 (nvalues n)) as (d0 & Id0) by (destruct (nvalues n) as [|x l]; [contradiction|exists x; left; reflexivity]).
  destruct (rVE_ok dom vars vs j1 [j] j2 NDV IVV) as (r & Er & Wr & Or & Vr).
  - cbn [app]. apply Forall_app. split; [exact W1|]. constructor; assumption.
  - right. discriminate.
  - exact CE.
  - apply le_n.
  - intros f u [<-|[]]. apply NV.
  - intros f a [<-|[]] R. rewrite (proj2 (Vj a R)). unfold uterm. rewrite NU. reflexivity.
  - exists (at_value v n d0 a0). split; [apply (at_range w I T v i n H K); assumption|]. fold E. rewrite (proj1 (TOP d0 a0 Id0 R0)). apply NZ, Id0.
  - exists (j1 ++ j :: j2), r. split; [exact ENF|]. split; [exact Er|]. split; [apply (wj_u _ _ _ Wr)|].
    assert (OS : forall u, In u (vorder (snd r)) <-> u = v).
    { intros u. rewrite (wj_scope _ _ _ Wr), Or. split.
      - intros [[CV NU']|(g & [<-|[]] & Hu)]; [|apply SCJ, Hu]. destruct (string_dec u v) as [X|X]; [exact X|].
        exfalso. apply NU', others_In. split; [|intros [Y|[]]; congruence].
        destruct CV as (f & Hf & Hfu). rewrite Forall_forall in WE. apply (wj_vars _ _ _ (WE f Hf)), Hfu.
      - intros ->. right. exists j. split; [left; reflexivity|]. apply SCJ. reflexivity. }
    assert (O1 : vorder (snd r) = [v]).
    { assert (ND := wf_nodup _ _ (wj_u _ _ _ Wr)). destruct (vorder (snd r)) as [|x [|y l]] eqn:EV.
      - exfalso. assert (X := proj2 (OS v) eq_refl). destruct X.
      - assert (x = v) by (apply OS; left; reflexivity). subst; reflexivity.
      - exfalso. assert (x = v) by (apply OS; left; reflexivity). assert (y = v) by (apply OS; right; left; reflexivity). subst.
        inversion ND as [|? ? Z _]; subst. apply Z. left; reflexivity. }
    split; [exact O1|]. intros d Id. assert (RD' := at_range w I T v i n H K d a0 Id R0).
    assert (FE : feval (snd r) (fun _ => idx d (nvalues n)) = feval (snd r) (at_value v n d a0)).
    { apply feval_deps. rewrite O1. intros u [<-|[]]. unfold at_value. rewrite upd_eq. reflexivity. }
    rewrite FE. specialize (Vr _ RD'). fold E in Vr. destruct (TOP d a0 Id R0) as (T1 & T2 & T3). rewrite T1, T2, T3 in Vr.
    eapply tri_mono; [|exact (Vr (NZ d Id))].
    assert (LL : length (dlook w) = length L1 + S (length L2)) by (rewrite EL, app_length; reflexivity).
    apply (errors_bound _ _ vs (fun u => negb (mem u [v]))).
    + rewrite !app_length. cbn [length]. lia.
    + unfold E. rewrite app_length. lia.
    + reflexivity.
Qed.

Theorem rlocal_best : (forall d, In d (nvalues n) -> plan_sum w [(v, d)] (fun _ => 1%Qc) <> 0%Qc) ->
  exists d, optimize_locally_by rmul raddf rmarg rinvert w v = Ok d /\ near_best w v (nvalues n) d.
Proof.
  intros NZ. destruct (rlocal_values NZ) as (js & r & E1 & E2 & W & O & V). destruct (T v i n H) as [NE ND]; [congruence|].
  destruct (best_first (snd r) v (fun x => feval (snd r) (fun _ => idx x (nvalues n))) (nvalues n) NE) as (m & d & Eb & FB).
  - intros d Id. destruct (read_single dom (snd r) v d W O) as (x & Ex & Dx); [rewrite (v_dom w I T v i n H K); exact ND|rewrite (v_dom w I T v i n H K); exact Id|].
    exists x. split; [exact Ex|]. rewrite Dx, (v_dom w I T v i n H K). reflexivity.
  - exists d. split.
    + unfold optimize_locally_by, dget_err, hget, values_attr. rewrite (proj1 H). cbn [rbind]. rewrite (proj2 H). cbn [rbind].
      rewrite E1. cbn [rbind]. rewrite (eliminated w I v i n H), P0, E2. cbn [rbind]. rewrite K. cbn [rbind]. rewrite Eb. reflexivity.
    + destruct FB as (pre & post & El & _ & FB). assert (Id : In d (nvalues n)) by (rewrite El; apply in_or_app; right; left; reflexivity).
      split; [exact Id|]. intros x Hx. specialize (FB x Hx). cbn beta in FB. destruct (V d Id) as [_ Td]. destruct (V x Hx) as [_ Tx].
      apply mag_bound in Td as [_ Td]. apply mag_bound in Tx as [Tx _].
      apply (Qcplus_le_compat _ _ _ _ Td) in Tx. revert FB Tx. clear.
      generalize (feval (snd r) (fun _ => idx d (nvalues n))), (feval (snd r) (fun _ => idx x (nvalues n))). intros yd yx FB Tx.
      apply (Qcplus_le_compat _ _ _ _ FB) in Tx. eapply le_shift; [exact Tx|]. unfold regret. ring.
Qed.
End Net.

(** ** Networks that differ in the tables of decisions *)
Section Alike.
Variables w w' : dworld.
Variable vs : list string.
Hypothesis I : dinv w.
Hypothesis I' : dinv w'.
Hypothesis X : same_but w w' vs.
Hypothesis L : forall v i n, In v vs -> dholds w v i n -> nkind n = KDecision.

Lemma utility_sizes_same s : utility_sizes w' s = utility_sizes w s.
Proof.
  unfold utility_sizes, dutils. rewrite (objects_unchanged w w' vs I I' X L is_utility utility_face); [reflexivity|].
  intros n K. unfold is_utility. rewrite K. reflexivity.
Qed.

Lemma utility_errors_same : utility_errors w' = utility_errors w.
Proof.
  unfold utility_errors. rewrite (sb_look _ _ _ X).
  assert (E : forall b, map (fun d => length (dn_values d)) (bnodes b) = map (fun p : string * list string => length (snd p)) (bvars b)) by (intros b; unfold bvars; rewrite map_map; reflexivity).
  rewrite !E, (bvars_same w w' vs I X). reflexivity.
Qed.

Lemma plan_scale_same ds : incl vs (dkeys ds) -> plan_scale w' ds = plan_scale w ds.
Proof.
  intros S. unfold plan_scale. rewrite !(plan_same w w' vs I I' X ds _ S). f_equal. unfold plan_sum. apply qsum_map_ext. intros s _.
  rewrite utility_sizes_same. reflexivity.
Qed.
End Alike.

Section Programs.
Context {RD : Rounding} {SY : Symmetric RD} {AD : Adding} {SO : SetOrder} {BO : BagOrder}.

Theorem rexpected_utility_ok w ds : dinv w -> dtidy w -> dlook w <> [] -> legal_decisions w ds ->
  nonneg_tables (open_nodes w ds) -> plan_sum w ds (fun _ => 1%Qc) <> 0%Qc ->
  exists w' y, rexpected_utility w ds = (w', Ok (scalar y)) /\ dinv w' /\ extends w w' ds /\
    tri (utility_errors w) (plan_value w ds) (plan_scale w ds) y.
Proof.
  intros I T NL L NN NZ. destruct (decide_all_ok ds w I L) as (w' & E & I' & X).
  destruct (fun T1 N1 => rcurrent_utility (RD := RD) (AD := AD) (SO := SO) (BO := BO) w' I' T1 N1) as (y & Ey & Ty).
  - apply (ext_tidy w w' ds I X T).
  - apply (nonneg_decided w w' ds I I' X L NN).
  - rewrite (ex_look _ _ _ X). exact NL.
  - rewrite (plan_decided w w' ds I I' X L T). exact NZ.
  - exists w', y. unfold rexpected_utility, expected_utility_by. rewrite E, Ey. split; [reflexivity|]. split; [exact I'|]. split; [exact X|].
    assert (SB := extends_same w w' ds X). assert (LK := legal_kinds w ds L).
    rewrite (value_decided w w' ds I I' X L T), (utility_errors_same w w' _ I SB) in Ty.
    replace (plan_scale w ds) with (plan_scale w' []); [exact Ty|]. unfold plan_scale. rewrite !(plan_decided w w' ds I I' X L T). f_equal.
    unfold plan_sum. apply qsum_map_ext. intros s _. rewrite (utility_sizes_same w w' _ I I' SB LK). reflexivity.
Qed.

(** Preparation. *)
Definition rmixed (n n' : node) : Prop := exists t, n' = with_cpd n t (nvalid n) /\ real_array (tarr t) /\
  shape (tarr t) = shape (tarr (ncpd n)) /\ forall ix, inb (shape (tarr t)) ix -> aget (tarr t) ix = rnd (/ qnat (length (nvalues n)))%Qc.

Lemma rfully_mixed_ok n : nkind n = KDecision -> nvalues n <> [] -> exists n', rfully_mixed n = Ok n' /\ rmixed n n'.
Proof.
  intros K NE. unfold rfully_mixed. destruct (fully_mixed_ok n K NE) as (n1 & E & t & -> & RT & SH & V). rewrite E. cbn [rbind].
  eexists. split; [reflexivity|]. eexists. split; [reflexivity|]. cbn [ncpd with_cpd tarr]. split; [apply real_amap, RT|]. split; [exact SH|].
  intros ix B. rewrite aget_amap; [|apply RT|exact B]. rewrite (V ix B). reflexivity.
Qed.

Lemma inv_rmixed w i : dinv w -> dinv (fst (d_on_node w i rfully_mixed)).
Proof.
  intros I. apply inv_on_node; [exact I|]. intros n n' H E. unfold rfully_mixed, fully_mixed in E.
  destruct (nkind n); try discriminate. destruct (nvalues n); [discriminate|]. cbn [rbind] in E. injection E as <-.
  eexists _. exists (nvalid n). split; [reflexivity|]. split; [apply real_amap, real_full|reflexivity].
Qed.

Lemma rmixed_same n n' : rmixed n n' -> face n' = face n /\ nporder n' = nporder n.
Proof. intros (t & -> & _). split; reflexivity. Qed.

Definition rready (fixed : dict string) (order : list string) (v : string) (n n' : node) : Prop :=
  (~ In v order -> n' = n) /\ (In v order -> match dget v fixed with Some d => decided n n' d | None => rmixed n n' end).

Lemma rprepare_ok fixed order : forall w, dinv w -> dtidy w -> NoDup order -> (forall v, In v order -> optimisable w fixed v) ->
  exists w1, rprepare w order fixed = (w1, Ok tt) /\ dinv w1 /\ dlook w1 = dlook w /\
    forall v i n, dholds w v i n -> exists n', dholds w1 v i n' /\ rready fixed order v n n'.
Proof.
  unfold rprepare. induction order as [|v order IH]; intros w I T ND Q.
  - exists w. split; [reflexivity|]. split; [exact I|]. split; [reflexivity|]. intros v i n H. exists n. split; [exact H|]. split; [reflexivity|intros []].
  - inversion ND as [|? ? NI ND']; subst. destruct (Q v (or_introl eq_refl)) as (i & n & H & K & D).
    assert (NE : nvalues n <> []) by (apply (T v i n H); congruence).
    assert (ST : exists n', (match dget v fixed with None => d_on_node w i rfully_mixed | Some d => d_decide w i d end) =
        (mkDW (list_set i n' (dheap w)) (dlook w), Ok tt) /\ dinv (mkDW (list_set i n' (dheap w)) (dlook w)) /\
        face n' = face n /\ match dget v fixed with Some d => decided n n' d | None => rmixed n n' end).
    { destruct (dget v fixed) as [d|].
      - destruct (set_decision_ok (dheap w) n d (di_ok w I i n (proj2 H)) K (D d eq_refl)) as (n' & E & DD). exists n'.
        assert (I1 := inv_decide w i d I). unfold d_decide in *. rewrite (proj2 H), E in *. cbn [fst snd] in *.
        split; [reflexivity|]. split; [exact I1|]. split; [apply (decided_same _ _ _ DD)|exact DD].
      - destruct (rfully_mixed_ok n K NE) as (n' & E & M). exists n'. assert (I1 := inv_rmixed w i I). unfold d_on_node in *. rewrite (proj2 H), E in *.
        cbn [fst] in I1. split; [reflexivity|]. split; [exact I1|]. split; [apply (rmixed_same _ _ M)|exact M]. }
    destruct ST as (n' & E & I1 & F & M). set (w1 := mkDW (list_set i n' (dheap w)) (dlook w)) in *.
    assert (G := set_table w v i n n' I H).
    assert (B : forall u j m', dholds w1 u j m' -> exists m, dholds w u j m /\ face m' = face m).
    { intros u j m' Hm'. destruct (di_named w I u j (proj1 Hm')) as (m & A & _). exists m. split; [split; [apply Hm'|exact A]|].
      assert (X := G u j m (conj (proj1 Hm') A)). assert (Y := proj2 X). assert (Z := proj2 Hm'). cbn in Y, Z.
      destruct (string_dec u v) as [->|_]; [|congruence]. assert (m' = n') by congruence. subst m'. rewrite F. assert (m = n) by (destruct Hm' as [A1 _], H as [A2 A3]; cbn in A1; congruence). congruence. }
    destruct (IH w1 I1) as (w2 & E2 & I2 & L2 & R2).
    + intros u j m' Hm' Ku. destruct (B u j m' Hm') as (m & Hm & Fm). unfold face in Fm. injection Fm as F1 F2 F3. rewrite F3.
      apply (T u j m Hm). congruence.
    + exact ND'.
    + intros u Hu. destruct (Q u (or_intror Hu)) as (j & m & Hm & Km & Dm). exists j. eexists. split; [apply (G u j m Hm)|].
      destruct (string_dec u v) as [->|_]; [contradiction|]. auto.
    + exists w2. split; [cbn [prepare_by]; rewrite (proj1 H), E; exact E2|]. split; [exact I2|]. split; [rewrite L2; reflexivity|].
      intros u j m Hm. destruct (R2 u j _ (G u j m Hm)) as (m2 & Hm2 & RA & RB). exists m2. split; [exact Hm2|].
      destruct (string_dec u v) as [->|Nu].
      * rewrite (RA NI). split; [intros X; exfalso; apply X; left; reflexivity|]. intros _.
        assert (m = n) by (destruct Hm, H; congruence). subst m. exact M.
      * split; [intros X; apply RA; intros Y; apply X; right; exact Y|]. intros [X|X]; [congruence|apply RB, X].
Qed.

Lemma rready_same w w1 fixed order : dlook w1 = dlook w ->
  (forall v i n, dholds w v i n -> exists n', dholds w1 v i n' /\ rready fixed order v n n') -> same_but w w1 order.
Proof.
  intros L R. constructor; [exact L|]. intros v i n H. destruct (R v i n H) as (n' & H' & A & B). exists n'. split; [exact H'|].
  destruct (In_dec_s v order) as [X|X].
  - specialize (B X). destruct (dget v fixed) as [d|]; [destruct (decided_same _ _ _ B) as (F & P & _)|destruct (rmixed_same _ _ B) as (F & P)]; auto; tauto.
  - rewrite (A X). auto.
Qed.

Notation rlocally := (optimize_locally_by rmul raddf rmarg rinvert).

Lemma rsolve_all w1 (good : string -> string -> Prop) order : (forall v, In v order -> exists d, rlocally w1 v = Ok d /\ good v d) ->
  forall acc, exists sol, foldM (fun sol v => let* d := rlocally w1 v in Ok (dset v d sol)) order acc = Ok sol /\
    (forall v, In v order -> exists d, dget v sol = Some d /\ good v d) /\ forall v, ~ In v order -> dget v sol = dget v acc.
Proof.
  induction order as [|v order IH]; intros G acc.
  - exists acc. split; [reflexivity|]. split; [intros v []|reflexivity].
  - destruct (G v (or_introl eq_refl)) as (d & E & Gd). cbn [foldM]. rewrite E. cbn [rbind].
    destruct (IH (fun u Hu => G u (or_intror Hu)) (dset v d acc)) as (sol & Es & A & B). exists sol. split; [exact Es|]. split.
    + intros u Hu. destruct (In_dec_s u order) as [X|X]; [apply A, X|]. destruct Hu as [<-|Hu]; [|contradiction].
      exists d. split; [|exact Gd]. rewrite (B _ X). apply dget_dset_eq.
    + intros u Hu. rewrite B by (intros X; apply Hu; right; exact X). apply dget_dset_neq. intros ->. apply Hu. left; reflexivity.
Qed.

Theorem roptimal_local w order fixed w1 : dinv w -> dtidy w -> NoDup order -> (forall v, In v order -> optimisable w fixed v) ->
  (forall v i n, In v order -> dholds w v i n -> nporder n = []) ->
  w1 = fst (rprepare w order fixed) -> nonneg_bn (dbn w1) ->
  (forall v i n d, In v order -> dholds w v i n -> In d (nvalues n) -> plan_sum w1 [(v, d)] (fun _ => 1%Qc) <> 0%Qc) ->
  exists sol, roptimal_decisions w order fixed = (w1, Ok sol) /\
    (forall v, In v (dkeys sol) <-> In v order) /\
    forall v i n, In v order -> dholds w v i n -> exists d, dget v sol = Some d /\ near_best w1 v (nvalues n) d.
Proof.
  intros I T ND Q NP -> NN NZ. destruct (rprepare_ok fixed order w I T ND Q) as (w1 & E & I1 & L1 & R1). rewrite E in *. cbn [fst] in *.
  assert (SB := rready_same w w1 fixed order L1 R1). assert (T1 := same_tidy w w1 order I SB T).
  destruct (rsolve_all w1 (fun v d => forall i n, dholds w v i n -> near_best w1 v (nvalues n) d) order) with (acc := @nil (string * string))
    as (sol & Es & A & B).
  - intros v Hv. destruct (Q v Hv) as (i & n & H & K & _). destruct (sb_objs _ _ _ SB v i n H) as (n' & H' & F & P & _).
    unfold face in F. injection F as F1 F2 F3.
    destruct (rlocal_best (RD := RD) (AD := AD) (SO := SO) (BO := BO) w1 I1 T1 NN v i n' H') as (d & Ed & FB); [congruence|rewrite P; apply (NP v i n Hv H)| |].
    + intros d Id. rewrite F3 in Id. apply (NZ v i n d Hv H Id).
    + exists d. split; [exact Ed|]. intros j m Hm. assert (m = n) by (destruct Hm, H; congruence). subst m. rewrite F3 in FB. exact FB.
  - exists sol. unfold roptimal_decisions, optimal_decisions_by. change (prepare_by rfully_mixed w order fixed) with (rprepare w order fixed). rewrite E.
    split; [rewrite Es; reflexivity|]. split.
    + intros v. split.
      * intros Hv. destruct (In_dec_s v order) as [X|X]; [exact X|]. specialize (B v X). cbn in B. apply dget_None in B. contradiction.
      * intros Hv. destruct (A v Hv) as (d & D & _). apply dget_In in D. exact (in_map fst _ _ D).
    + intros v i n Hv H. destruct (A v Hv) as (d & D & G). exists d. split; [exact D|apply (G i n H)].
Qed.

(** One decision. *)
Theorem roptimal_single w v i n fixed order : dinv w -> dtidy w -> dholds w v i n -> nkind n = KDecision -> nporder n = [] ->
  (forall d, dget v fixed = Some d -> In d (nvalues n)) ->
  nonneg_tables (open_nodes w [(v, "")]) -> stochastic_tables (open_nodes w [(v, "")]) -> topological (dbn w) order ->
  exists w1 d, roptimal_decisions w [v] fixed = (w1, Ok [(v, d)]) /\ near_best w v (nvalues n) d.
Proof.
  intros I T H K P0 FX NN ST TO. assert (ND1 : NoDup [v]) by (constructor; [intros []|constructor]).
  assert (Q : forall u, In u [v] -> optimisable w fixed u) by (intros u [<-|[]]; exists i, n; auto).
  destruct (rprepare_ok fixed [v] w I T ND1 Q) as (w1 & E & I1 & L1 & R1).
  assert (SB := rready_same w w1 fixed [v] L1 R1).
  assert (KD : forall u j m, In u [v] -> dholds w u j m -> nkind m = KDecision).
  { intros u j m [<-|[]] Hm. assert (m = n) by (destruct Hm, H; congruence). congruence. }
  assert (IN : forall d : string, incl [v] (dkeys [(v, d)])) by (intros d u Hu; exact Hu).
  destruct (roptimal_local w [v] fixed w1 I T ND1 Q) as (sol & Es & Ks & As).
  - intros u j m [<-|[]] Hm. assert (m = n) by (destruct Hm, H; congruence). congruence.
  - rewrite E. reflexivity.
  - intros m Hm. destruct (R1 v i n H) as (n' & H' & RA & RB). specialize (RB (or_introl eq_refl)).
    apply (dobj_In w1 I1) in Hm as (u & j & x & Hx & Ux & ->). destruct (string_dec u v) as [->|Nu].
    + assert (x = n') by (destruct Hx, H'; congruence). subst x. cbn [snapshot_node dn_cpd].
      assert (NEV : nvalues n <> []) by (apply (T v i n H); congruence).
      assert (XX : exists t, n' = with_cpd n t (nvalid n) /\ real_array (tarr t) /\ forall ix, inb (shape (tarr t)) ix -> (0 <= aget (tarr t) ix)%Qc).
      { destruct (dget v fixed) as [d|]; destruct RB as (t & En & RT & SH & V); exists t; split; try exact En; split; try exact RT; intros ix B.
        - assert (exists a b, ix = a :: b) as (a & b & ->).
          { destruct ix as [|a b]; [|do 2 eexists; reflexivity]. rewrite SH, (dshape w I v i n H), (own_dims_values n (or_intror K) NEV) in B. inversion B. }
          rewrite V by exact B. destruct (Nat.eqb _ _); discriminate.
        - rewrite V by exact B. rewrite <- rnd_zero. apply rnd_mono; [apply Qcle_refl|apply qnat_inv_nonneg]. }
      destruct XX as (t & -> & RT & V). cbn [ncpd with_cpd]. rewrite (data_aget _ RT). apply Forall_forall. intros z Hz.
      apply in_map_iff in Hz as (ix & <- & Hix). apply V, In_indices, Hix.
    + assert (OS := open_same w w1 [v] I I1 SB [(v, "")] (IN "")).
      apply NN. rewrite <- OS. apply filter_In. split; [apply (dobj_In w1 I1); exists u, j, x; auto|].
      cbn [snapshot_node dn_name]. rewrite (dnamed w1 I1 u j x Hx). cbn. rewrite eqb_neq_s by exact Nu. reflexivity.
  - intros u j m d [<-|[]] Hm Id. assert (m = n) by (destruct Hm, H; congruence). subst m.
    rewrite (plan_same w w1 [v] I I1 SB [(v, d)] _ (IN d)).
    rewrite (plan_one w [(v, d)] order I T); [discriminate| |exact ST|exact TO].
    split; [exact ND1|]. intros x y [X|[]]. injection X as <- <-. exists i, n. auto.
  - destruct (As v i n (or_introl eq_refl) H) as (d & Dd & FB). exists w1, d. split.
    + rewrite Es. f_equal. f_equal.
      unfold roptimal_decisions, optimal_decisions_by in Es. change (prepare_by rfully_mixed w [v] fixed) with (rprepare w [v] fixed) in Es. rewrite E in Es.
      cbn [foldM] in Es. destruct (rlocally w1 v) as [x|]; [|discriminate Es].
      cbn in Es. injection Es as <-. cbn in Dd. rewrite String.eqb_refl in Dd. injection Dd as ->. reflexivity.
    + destruct FB as (Id & FB). split; [exact Id|]. intros x Hx. specialize (FB x Hx). unfold regret in *.
      rewrite !(value_same w w1 [v] I I1 SB KD _ (IN _)), !(plan_scale_same w w1 [v] I I1 SB KD _ (IN _)), (utility_errors_same w w1 [v] I SB) in FB. exact FB.
Qed.
End Programs.
