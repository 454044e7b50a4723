(** Proofs of the factor properties on named instantiations. *)
From Verif Require Import Base BaseFacts NDArray NDArrayFacts SumCalc Factor FactorFacts Exact Spec SpecFacts FactorSpec.
From Coq Require Import Field.
From Coq Require QArith.Qreduction.

Lemma nodup_s_spec l : nodup_s l = true <-> NoDup l.
Proof.
  induction l as [|x l IH]; cbn; [split; [constructor|reflexivity]|].
  rewrite andb_true_iff, negb_true_iff, mem_nIn, IH. split.
  - intros [H1 H2]; constructor; assumption. - intros H; inversion H; auto.
Qed.

Lemma good_factorb_ok f : good_factorb f = true -> good_factor f.
Proof.
  unfold good_factorb. rewrite !andb_true_iff, !nodup_s_spec, !subset_spec, Nat.eqb_eq, forallb_forall.
  intros ((((((H1 & H2) & H3) & H4) & H5) & H6) & H7). destruct (list_eq_dec _ _ _) as [E|]; [|discriminate].
  split; auto. - intros v; split; auto. - intros v Hv. apply nodup_s_spec, H7, Hv.
Qed.

Lemma fvalues_some f v : good_factor f -> In v (vorder f) -> dget v (fvals f) = Some (fvalues f v).
Proof.
  intros G H. apply (gf_same _ G) in H. apply dget_key in H as [l E]. unfold fvalues. rewrite E; reflexivity.
Qed.

Lemma fvalues_none f v : good_factor f -> ~ In v (vorder f) -> dget v (fvals f) = None.
Proof. intros G H. apply dget_None. rewrite (gf_same _ G). exact H. Qed.

Lemma good_wf D f : good_factor f -> (forall v, In v (vorder f) -> D v = fvalues f v) -> wf_factor D f.
Proof.
  intros G H. split; try apply G.
  - rewrite (gf_shape _ G). apply map_ext_in. intros v Hv. unfold card. rewrite H by exact Hv. reflexivity.
  - intros v Hv. rewrite H by exact Hv. apply fvalues_some; assumption.
Qed.

Lemma wf_values D f v : wf_factor D f -> In v (vorder f) -> fvalues f v = D v.
Proof. intros W H. unfold fvalues. rewrite (wf_vals _ _ W v H). reflexivity. Qed.

Lemma wf_good D f : wf_factor D f -> (forall v, In v (vorder f) -> NoDup (D v)) -> good_factor f.
Proof.
  intros W H. split; try apply W.
  - rewrite (wf_shape _ _ W). apply map_ext_in. intros v Hv. rewrite (wf_values D f v W Hv). reflexivity.
  - intros v Hv. rewrite (wf_values D f v W Hv). apply H, Hv.
Qed.

Definition aq (D : string -> list string) (q : dict string) : asg := fun v => idx (look q v) (D v).

Lemma potential_aq D f q : wf_factor D f -> potential_at f q = feval f (aq D q).
Proof.
  intros W. unfold potential_at, feval. f_equal. apply map_ext_in. intros v Hv.
  rewrite (wf_vals _ _ W v Hv). reflexivity.
Qed.

Lemma legal_range D f q : wf_factor D f -> legal f q -> inrange (card D) (vorder f) (aq D q).
Proof.
  intros W L v Hv. destruct (L v Hv) as (x & E & Hx). unfold aq, card, look. rewrite E.
  apply idx_lt. rewrite <- (wf_values D f v W Hv). exact Hx.
Qed.

Definition merge (f g : factor) : string -> list string :=
  fun v => if mem v (vorder f) then fvalues f v else fvalues g v.

Lemma merge_l f g : good_factor f -> wf_factor (merge f g) f.
Proof. intros G. apply good_wf; [exact G|]. intros v Hv. unfold merge. apply mem_In in Hv. rewrite Hv. reflexivity. Qed.

Lemma merge_r f g : good_factor g -> compatible f g -> wf_factor (merge f g) g.
Proof.
  intros G C. apply good_wf; [exact G|]. intros v Hv. unfold merge. destruct (mem v (vorder f)) eqn:E; [|reflexivity].
  apply mem_In in E. apply C; assumption.
Qed.

Section SO.
Context {SO : SetOrder}.

Lemma combine_named op f g : good_factor f -> good_factor g -> compatible f g ->
  exists h, fcombine op f g = Ok h /\ good_factor h /\
    (forall v, In v (vorder h) <-> In v (vorder f) \/ In v (vorder g)) /\
    (forall v, In v (vorder f) -> fvalues h v = fvalues f v) /\
    (forall v, In v (vorder g) -> fvalues h v = fvalues g v) /\
    (forall q, legal h q -> potential_at h q = op (potential_at f q) (potential_at g q)).
Proof.
  intros Gf Gg C. assert (Wf := merge_l f g Gf). assert (Wg := merge_r f g Gg C).
  set (D := merge f g) in *.
  destruct (fcombine_spec D op f g Wf Wg) as (h & E & W & _ & O & V). exists h.
  assert (VF : forall v, In v (vorder f) -> fvalues h v = fvalues f v).
  { intros v Hv. rewrite (wf_values D h v W) by (apply O; tauto). symmetry; apply (wf_values D f v Wf Hv). }
  assert (VG : forall v, In v (vorder g) -> fvalues h v = fvalues g v).
  { intros v Hv. rewrite (wf_values D h v W) by (apply O; tauto). symmetry; apply (wf_values D g v Wg Hv). }
  split; [exact E|]. split.
  { apply (wf_good D h W). intros v Hv. apply O in Hv as [Hv|Hv].
    - rewrite <- (wf_values D f v Wf Hv). apply Gf, Hv.
    - rewrite <- (wf_values D g v Wg Hv). apply Gg, Hv. }
  split; [exact O|]. split; [exact VF|]. split; [exact VG|].
  intros q L. rewrite (potential_aq D h q W), (potential_aq D f q Wf), (potential_aq D g q Wg).
  apply V. apply legal_range; assumption.
Qed.

(** Sums over named states *)
Lemma states_potential D f vs q : wf_factor D f -> NoDup vs -> incl vs (vorder f) ->
  (forall v, In v (vorder f) -> NoDup (D v)) ->
  qsum (map (fun s => potential_at f (s ++ q)) (states (map (fun v => (v, fvalues f v)) vs))) =
  sum_over (card D) vs (feval f) (aq D q).
Proof.
  intros W ND I NV.
  assert (F : map fst (map (fun v => (v, fvalues f v)) vs) = vs) by (rewrite map_map; apply map_id).
  rewrite (states_sum (card D)) with (a := aq D q).
  2: { rewrite F; exact ND. }
  2: { intros v l H. apply in_map_iff in H as (w & E & Hw). inversion E; subst.
       unfold card. rewrite (wf_values D f v W (I v Hw)). reflexivity. }
  rewrite F. apply sum_over_ext_in. intros a R Ea. rewrite (potential_aq D _ _ W).
  apply feval_deps. intros v Hv. unfold aq, look.
  assert (DA : forall (d1 d2 : dict string), dget v (d1 ++ d2) = match dget v d1 with Some x => Some x | None => dget v d2 end).
  { intros d1 d2. induction d1 as [|[k x] d1 IH]; cbn; [reflexivity|]. destruct (String.eqb v k); [reflexivity|exact IH]. }
  rewrite DA. destruct (In_dec_s v vs) as [Hi|Hi].
  - rewrite (dget_state_of _ a v (fvalues f v)).
    + rewrite (wf_values D f v W Hv). apply idx_nth; [apply NV, Hv|apply R, Hi].
    + rewrite F; exact ND.
    + apply in_map_iff. exists v; auto.
  - assert (N : dget v (state_of (map (fun v => (v, fvalues f v)) vs) a) = None).
    { apply dget_None. unfold dkeys, state_of. rewrite !map_map. cbn. rewrite map_id. exact Hi. }
    rewrite N. symmetry. apply Ea, Hi.
Qed.

Lemma good_self f : good_factor f -> wf_factor (fvalues f) f.
Proof. intros G. apply good_wf; [exact G|reflexivity]. Qed.

Lemma remove_filter (o : list string) : NoDup o -> forall vs,
  fold_left (fun l v => remove1 v l) vs o = filter (fun v => negb (mem v vs)) o.
Proof.
  intros ND vs. revert o ND. induction vs as [|v vs IH]; intros o ND; cbn.
  - clear. induction o; cbn; [reflexivity|]. f_equal; exact IHo.
  - rewrite IH by (apply remove1_NoDup, ND). clear IH.
    induction ND as [|x o N ND IH]; [reflexivity|]. cbn [remove1 filter].
    change (mem x (v :: vs)) with (String.eqb x v || mem x vs). rewrite (String.eqb_sym x v).
    destruct (String.eqb_spec v x) as [->|n]; cbn [negb orb].
    + rewrite remove1_notin in IH by exact N. exact IH.
    + cbn [filter]. rewrite IH. reflexivity.
Qed.

Lemma marginalize_order D f vs h : wf_factor D f -> marginalize f vs = Ok h -> vorder h = fold_left (fun l v => remove1 v l) vs (vorder f).
Proof.
  intros W. revert f W. unfold marginalize. induction vs as [|v vs IH]; intros f W E; cbn in *; [inversion E; reflexivity|].
  destruct (In_dec_s v (vorder f)) as [H|H].
  - destruct (marginalize1_spec D f v W H) as (f1 & E1 & W1 & O1 & _). rewrite E1 in E. cbn in E.
    rewrite (IH f1 W1 E), O1. reflexivity.
  - rewrite (marginalize1_absent D f v W H) in E. discriminate.
Qed.

Lemma marginalize_named f vs : good_factor f -> NoDup vs -> incl vs (vorder f) ->
  exists h, marginalize f vs = Ok h /\ good_factor h /\
    vorder h = filter (fun v => negb (mem v vs)) (vorder f) /\
    (forall v, In v (vorder h) -> fvalues h v = fvalues f v) /\
    (forall q, legal h q -> potential_at h q =
       qsum (map (fun s => potential_at f (s ++ q)) (states (map (fun v => (v, fvalues f v)) vs)))).
Proof.
  intros G ND I. assert (W := good_self f G). set (D := fvalues f) in *.
  destruct (marginalize_spec D f vs W ND I) as (h & E & Wh & O & V). exists h.
  split; [exact E|]. split.
  { apply (wf_good D h Wh). intros v Hv. apply O in Hv as [Hv _]. apply G, Hv. }
  split; [rewrite (marginalize_order D f vs h W E); apply remove_filter, G|].
  split; [intros v Hv; apply (wf_values D h v Wh Hv)|].
  intros q L. rewrite (potential_aq D h q Wh), V by (apply legal_range; assumption).
  etransitivity; [|symmetry; apply (states_potential D f vs q W ND I); apply G].
  apply sum_over_perm; [apply feval_ext|]. symmetry. apply Permutation_rev.
Qed.

Lemma marginalize_any_order f vs ws : good_factor f -> NoDup vs -> incl vs (vorder f) -> Permutation vs ws ->
  exists h1 h2, marginalize f vs = Ok h1 /\ marginalize f ws = Ok h2 /\ vorder h1 = vorder h2 /\ pot h1 = pot h2.
Proof.
  intros G ND I P. assert (W := good_self f G). set (D := fvalues f) in *.
  destruct (marginalize_spec D f vs W ND I) as (h1 & E1 & W1 & O1 & V1).
  destruct (marginalize_spec D f ws W) as (h2 & E2 & W2 & O2 & V2).
  { apply (Permutation_NoDup P), ND. } { intros v Hv. apply I. apply (Permutation_in _ (Permutation_sym P)), Hv. }
  exists h1, h2. split; [exact E1|]. split; [exact E2|].
  assert (EO : vorder h1 = vorder h2).
  { rewrite (marginalize_order D f vs h1 W E1), (marginalize_order D f ws h2 W E2), !remove_filter by apply G.
    apply filter_ext. intros v. f_equal. destruct (mem v vs) eqn:M1, (mem v ws) eqn:M2; auto.
    - apply mem_In in M1. apply mem_nIn in M2. exfalso; apply M2, (Permutation_in _ P), M1.
    - apply mem_In in M2. apply mem_nIn in M1. exfalso; apply M1, (Permutation_in _ (Permutation_sym P)), M2. }
  split; [exact EO|]. apply (pot_ext D h1 h2 W1 W2 EO). intros a R.
  rewrite V1 by exact R. rewrite V2 by (rewrite <- EO; exact R).
  apply sum_over_perm; [apply feval_ext|]. rewrite <- !Permutation_rev. exact P.
Qed.

Lemma marginalize_bad f vs : good_factor f -> (~ NoDup vs \/ ~ incl vs (vorder f)) ->
  marginalize f vs = Err ValueError.
Proof.
  intros G B. assert (W := good_self f G). revert f G B W. generalize (fvalues : factor -> string -> list string).
  intros FV f _ B W. set (D := FV f) in *. clearbody D. revert f W B. unfold marginalize.
  induction vs as [|v vs IH]; intros f W B; cbn.
  - exfalso. destruct B as [B|B]; apply B; [constructor|intros x []].
  - destruct (In_dec_s v (vorder f)) as [H|H].
    + destruct (marginalize1_spec D f v W H) as (f1 & E1 & W1 & O1 & _). rewrite E1. cbn. apply IH; [exact W1|].
      destruct (in_dec string_dec v vs) as [Hv|Hv].
      * right. intros I. specialize (I v Hv). rewrite O1 in I. apply remove1_In in I; [tauto|apply W].
      * destruct B as [B|B].
        -- left. intros N; apply B. constructor; assumption.
        -- right. intros I; apply B. intros x [<-|Hx]; [exact H|]. specialize (I x Hx). rewrite O1 in I.
           apply remove1_In in I; [tauto|apply W].
    + rewrite (marginalize1_absent D f v W H). reflexivity.
Qed.

Lemma compatible_incl f g : good_factor f -> good_factor g -> compatible f g -> wf_factor (merge f g) f /\ wf_factor (merge f g) g.
Proof. intros; split; [apply merge_l; assumption|apply merge_r; assumption]. Qed.

Lemma div_named f g : good_factor f -> good_factor g -> compatible f g -> incl (vorder g) (vorder f) ->
  (vorder g = [] -> potential_at g [] <> 0%Qc) ->
  exists h, fdiv f g = Ok h /\ good_factor h /\ (forall v, In v (vorder h) <-> In v (vorder f)) /\
    (forall v, In v (vorder f) -> fvalues h v = fvalues f v) /\
    (forall q, legal h q -> potential_at h q =
       if qeqb (potential_at g q) 0%Qc then 0%Qc else (potential_at f q / potential_at g q)%Qc).
Proof.
  intros Gf Gg C I T. destruct (compatible_incl f g Gf Gg C) as [Wf Wg]. set (D := merge f g) in *.
  destruct (fdiv_spec D f g Wf Wg I) as (h & E & W & O & V).
  { intros Z. specialize (T Z). rewrite (potential_aq D g [] Wg) in T. intros X; apply T. rewrite <- X.
    apply feval_deps. rewrite Z. intros v []. }
  assert (VF : forall v, In v (vorder f) -> fvalues h v = fvalues f v).
  { intros v Hv. rewrite (wf_values D h v W) by (apply O; tauto). symmetry; apply (wf_values D f v Wf Hv). }
  exists h. split; [exact E|]. split.
  { apply (wf_good D h W). intros v Hv. apply O in Hv. rewrite <- (wf_values D f v Wf Hv). apply Gf, Hv. }
  split; [exact O|]. split; [exact VF|]. intros q L.
  rewrite (potential_aq D h q W), (potential_aq D f q Wf), (potential_aq D g q Wg).
  rewrite V by (apply legal_range; assumption).
  destruct (qeqb (feval g (aq D q)) 0%Qc) eqn:Z; [|reflexivity].
  apply qeqb_true in Z. rewrite Z. unfold Qcdiv. rewrite Qcinv_0. ring.
Qed.

Lemma div_scope f g : good_factor f -> good_factor g -> compatible f g -> ~ incl (vorder g) (vorder f) ->
  fdiv f g = Err ValueError.
Proof.
  intros Gf Gg C N. destruct (compatible_incl f g Gf Gg C) as [Wf Wg].
  apply (fdiv_scope_error (merge f g)); assumption.
Qed.

Lemma mul_div f g : good_factor f -> good_factor g -> compatible f g ->
  (vorder g = [] -> potential_at g [] <> 0%Qc) ->
  exists p h, fmul f g = Ok p /\ fdiv p g = Ok h /\
    (forall v, In v (vorder h) <-> In v (vorder f) \/ In v (vorder g)) /\
    forall q, legal h q -> potential_at g q <> 0%Qc -> potential_at h q = potential_at f q.
Proof.
  intros Gf Gg C T. destruct (combine_named Qcmult f g Gf Gg C) as (p & E & Gp & O & VF & VG & V).
  destruct (div_named p g Gp Gg) as (h & E2 & Gh & O2 & V2 & P2).
  - intros v _ Hv. apply VG, Hv. - intros v Hv; apply O; tauto. - exact T.
  - exists p, h. split; [exact E|]. split; [exact E2|]. split; [intros v; rewrite O2; apply O|].
    intros q L NZ. rewrite P2 by exact L.
    assert (Z := NZ). apply qeqb_false in Z. rewrite Z. rewrite V.
    + field. exact NZ.
    + intros v Hv. destruct (L v) as (x & E3 & Hx); [apply O2, Hv|]. exists x; split; [exact E3|].
      rewrite <- (V2 v Hv). exact Hx.
Qed.

End SO.

(** normalize *)
Lemma normalize_data f : good_factor f ->
  let s := qsum (data (pot f)) in
  vorder (normalize f) = vorder f /\ fvals (normalize f) = fvals f /\
  shape (pot (normalize f)) = shape (pot f) /\
  ((0 < s)%Qc -> data (pot (normalize f)) = map (fun x => x / s)%Qc (data (pot f)) /\
                 qsum (data (pot (normalize f))) = 1%Qc) /\
  (~ (0 < s)%Qc -> normalize f = f).
Proof.
  intros G s. unfold normalize, asum. fold s. destruct (qltb 0%Qc s) eqn:Z.
  - apply qltb_true in Z. cbn. repeat (split; [reflexivity|]). split; [|tauto]. intros _. split; [reflexivity|].
    rewrite (qsum_map_ext _ (fun x => / s * x)%Qc) by (intros; unfold Qcdiv; ring).
    rewrite qsum_mult_l, map_id. fold s. rewrite Qcmult_comm. apply Qcmult_inv_r, Qc_pos_neq0, Z.
  - apply qltb_false in Z. repeat (split; [reflexivity|]). split; [|reflexivity].
    intros P. exfalso. apply (Qclt_not_le _ _ P), Z.
Qed.

(** get_potential *)

Lemma mapM_err {A B} (g : A -> res B) e l :
  (forall x, In x l -> (exists y, g x = Ok y) \/ g x = Err e) -> (exists x, In x l /\ g x = Err e) ->
  mapM g l = Err e.
Proof.
  induction l as [|x l IH]; intros H (z & Hz & Ez); [destruct Hz|]. cbn.
  destruct (H x (or_introl eq_refl)) as [[y E]|E]; rewrite E; [|reflexivity]. cbn.
  rewrite IH; [reflexivity| |].
  - intros w Hw; apply H; right; exact Hw.
  - destruct Hz as [->|Hz]; [congruence|eauto].
Qed.

Fixpoint nths_s (ls : list (list string)) (ix : list nat) : list string :=
  match ls, ix with
  | l :: ls', i :: ix' => nth i l "" :: nths_s ls' ix'
  | _, _ => []
  end.

Lemma indices_states (vars : list (string * list string)) (G : dict string -> Qc) :
  map (fun ix => G (combine (map fst vars) (nths_s (map snd vars) ix))) (indices (map (fun p => length (snd p)) vars)) =
  map G (states vars).
Proof.
  revert G; induction vars as [|[v l] vars IH]; intros G; cbn; [reflexivity|].
  assert (X : forall (k : nat) (l0 : list string), (forall i, i < length l0 -> nth (k + i) l "" = nth i l0 "") ->
    map (fun ix => G (combine (v :: map fst vars) (nths_s (l :: map snd vars) ix)))
      (flat_map (fun i => map (cons i) (indices (map (fun p => length (snd p)) vars))) (seq k (length l0))) =
    map G (flat_map (fun x => map (cons (v, x)) (states vars)) l0)).
  { intros k l0. revert k. induction l0 as [|x l0 IHl]; intros k H; [reflexivity|].
    cbn [length seq flat_map]. rewrite !map_app, !map_map. f_equal.
    - etransitivity; [|exact (IH (fun s => G ((v, x) :: s)))]. apply map_ext. intros ix. cbn.
      specialize (H 0 ltac:(cbn; lia)). rewrite Nat.add_0_r in H. rewrite H. reflexivity.
    - apply IHl. intros i Hi. specialize (H (S i) ltac:(cbn; lia)). rewrite Nat.add_succ_r in H. exact H. }
  apply (X 0 l). reflexivity.
Qed.

Definition pos_ix (f : factor) (sel : dict (list string)) (v : string) : list nat :=
  map (fun x => idx x (fvalues f v)) (choice f sel v).

Lemma idx_self (l : list string) : NoDup l -> map (fun x => idx x l) l = seq 0 (length l).
Proof.
  intros ND. apply nth_ext with (d := 0) (d' := 0); [rewrite map_length, seq_length; reflexivity|].
  intros n Hn. rewrite map_length in Hn. rewrite seq_nth by exact Hn.
  rewrite (nth_indep _ 0 (idx "" l)) by (rewrite map_length; exact Hn).
  rewrite (map_nth (fun x => idx x l)). apply idx_nth; assumption.
Qed.

(** Flat contents of a selection. *)
Lemma selection_data f sel : good_factor f ->
  data (take_ix (pot f) (map (pos_ix f sel) (vorder f))) =
  map (potential_at f) (states (map (fun v => (v, choice f sel v)) (vorder f))).
Proof.
  intros G. rewrite <- indices_states. unfold take_ix, tabulate; cbn [data].
  rewrite !map_map. cbn [fst snd].
  rewrite (map_ext (fun v => length (pos_ix f sel v)) (fun v => length (choice f sel v)))
    by (intros v; unfold pos_ix; apply map_length).
  apply map_ext_in. intros ix Hix. apply In_indices in Hix. unfold potential_at. f_equal.
  assert (Len := inb_length _ _ Hix). rewrite map_length in Len.
  assert (K : forall o, NoDup o -> forall ix, inb (map (fun v => length (choice f sel v)) o) ix ->
     nths (map (pos_ix f sel) o) ix =
     map (fun v => position (look (combine (map (fun v => v) o) (nths_s (map (choice f sel) o) ix)) v)
            match dget v (fvals f) with Some l => l | None => [] end) o).
  { clear. intros o ND. induction ND as [|v o N ND IH]; intros ix H; [reflexivity|].
    destruct ix as [|i ix]; [apply inb_length in H; cbn in H; lia|].
    inversion H as [|? ? ? ? Hi Hix]; subst. cbn [map nths nths_s combine]. f_equal.
    - unfold look; cbn. rewrite String.eqb_refl. unfold pos_ix. rewrite position_idx.
      rewrite (nth_indep _ 0 (idx "" (fvalues f v))) by (rewrite map_length; exact Hi).
      rewrite (map_nth (fun x => idx x (fvalues f v))). reflexivity.
    - rewrite (IH ix Hix). apply map_ext_in. intros w Hw. f_equal. unfold look; cbn.
      rewrite eqb_neq_s by (intros ->; contradiction). reflexivity. }
  apply K; [apply G|exact Hix].
Qed.

Lemma get_potential_named f sel : good_factor f -> sel <> [] ->
  (forall v l x, In v (vorder f) -> dget v sel = Some l -> In x l -> In x (fvalues f v)) ->
  exists r, get_potential f sel = Ok r /\
    shape r = filter (fun d => negb (Nat.eqb d 1)) (map (fun v => length (choice f sel v)) (vorder f)) /\
    data r = map (potential_at f) (states (map (fun v => (v, choice f sel v)) (vorder f))).
Proof.
  intros G NE H. unfold get_potential.
  rewrite (mapM_total _ (pos_ix f sel)).
  - cbn. destruct sel as [|p sel]; [congruence|]. eexists; split; [reflexivity|]. split.
    + cbn [squeeze shape take_ix tabulate]. rewrite map_map. f_equal. apply map_ext. intros v. unfold pos_ix. apply map_length.
    + cbn [squeeze data]. apply selection_data, G.
  - intros v Hv. unfold dget_err. rewrite (fvalues_some f v G Hv). cbn.
    destruct (dget v sel) as [l|] eqn:E; unfold pos_ix, choice; rewrite E.
    + apply mapM_total. intros x Hx. apply py_index_ok. eapply H; eassumption.
    + rewrite idx_self by (apply G, Hv). reflexivity.
Qed.

Lemma get_potential_all f : good_factor f -> exists r, get_potential f [] = Ok r /\ r = pot f.
Proof.
  intros G. unfold get_potential. rewrite (mapM_total _ (fun v => seq 0 (length (fvalues f v)))).
  - cbn. eauto.
  - intros v Hv. unfold dget_err. rewrite (fvalues_some f v G Hv). reflexivity.
Qed.

(** The whole table in state order. *)
Lemma table_states f : good_factor f ->
  data (pot f) = map (potential_at f) (states (map (fun v => (v, fvalues f v)) (vorder f))).
Proof.
  intros G. etransitivity; [|exact (selection_data f [] G)]. unfold take_ix, tabulate; cbn [data].
  rewrite data_aget by apply G. rewrite (gf_shape f G), map_map.
  rewrite (map_ext (fun v => length (pos_ix f [] v)) (fun v => length (fvalues f v)))
    by (intros v; unfold pos_ix; apply map_length).
  apply map_ext_in. intros ix Hix. apply In_indices in Hix. f_equal.
  assert (K : forall o, (forall v, In v o -> NoDup (fvalues f v)) -> forall ix,
    inb (map (fun v => length (fvalues f v)) o) ix -> ix = nths (map (pos_ix f []) o) ix).
  { clear. induction o as [|v o IH]; intros N ix H.
    - apply inb_length in H. destruct ix; [reflexivity|discriminate].
    - destruct ix as [|i ix]; [apply inb_length in H; cbn in H; lia|].
      inversion H as [|? ? ? ? Hi Hix]; subst. cbn [map nths].
      rewrite <- (IH (fun w Hw => N w (or_intror Hw)) ix Hix). f_equal.
      unfold pos_ix, choice; cbn. rewrite idx_self by (apply N; left; reflexivity).
      rewrite seq_nth by exact Hi. reflexivity. }
  apply K; [apply G|exact Hix].
Qed.

Lemma get_potential_bad f sel v l x : good_factor f -> In v (vorder f) -> dget v sel = Some l ->
  In x l -> ~ In x (fvalues f v) -> get_potential f sel = Err ValueError.
Proof.
  intros G Hv E Hx N. unfold get_potential.
  rewrite (mapM_err _ ValueError); [reflexivity| |].
  - intros w Hw. unfold dget_err. rewrite (fvalues_some f w G Hw). cbn.
    destruct (dget w sel) as [l'|]; [|left; eauto].
    clear. induction l' as [|y l' IH]; cbn; [left; eauto|].
    destruct (In_dec_s y (fvalues f w)) as [H|H].
    + rewrite py_index_ok by exact H. cbn. destruct IH as [[ys E]|E]; rewrite E; cbn; [left; eauto|right; reflexivity].
    + rewrite py_index_err by exact H. right; reflexivity.
  - exists v. split; [exact Hv|]. unfold dget_err. rewrite (fvalues_some f v G Hv). cbn. rewrite E.
    apply mapM_err.
    + intros y _. destruct (In_dec_s y (fvalues f v)) as [H|H]; [left; eexists; apply py_index_ok, H|right; apply py_index_err, H].
    + exists x. split; [exact Hx|apply py_index_err, N].
Qed.

(** as_evidence *)
Lemma evidence_hard v vals x : NoDup vals -> In x vals ->
  exists f, as_evidence v vals (Hard x) None = Ok f /\ good_factor f /\ vorder f = [v] /\ fvalues f v = vals /\
    forall y, In y vals -> potential_at f [(v, y)] = if String.eqb y x then 1%Qc else 0%Qc.
Proof.
  intros ND H. unfold as_evidence. destruct (index_of_In x vals H) as [i Ei]. rewrite Ei.
  eexists; split; [reflexivity|].
  assert (FV : fvalues (mkF (mkArr [length vals] (list_set i 1%Qc (repeat 0%Qc (length vals)))) [v] [(v, vals)]) v = vals).
  { unfold fvalues; cbn. rewrite String.eqb_refl. reflexivity. }
  split; [|split; [reflexivity|split; [exact FV|]]].
  - split; cbn [vorder fvals pot shape data dkeys map fst].
    + repeat constructor; tauto. + repeat constructor; tauto. + cbn; tauto. + rewrite FV; reflexivity.
    + cbn. rewrite list_set_length, repeat_length. lia. + intros w [<-|[]]. rewrite FV. exact ND.
  - intros y Hy. unfold potential_at; cbn. rewrite String.eqb_refl. unfold look; cbn. rewrite String.eqb_refl.
    unfold aget; cbn. rewrite Nat.mul_1_r, Nat.add_0_r, position_idx.
    apply index_of_Some in Ei as Ei'. destruct Ei' as [E1 Li].
    destruct (String.eqb_spec y x) as [->|n].
    + unfold idx. rewrite Ei. apply list_set_nth_eq. rewrite repeat_length; exact Li.
    + rewrite list_set_nth_neq; [apply nth_repeat|].
      intros ->. apply n. apply nth_error_nth with (d := y) in E1. rewrite nth_idx in E1 by exact Hy. exact E1.
Qed.

Lemma evidence_soft v vals q : NoDup vals -> length q = length vals ->
  exists f, as_evidence v vals (Soft q) None = Ok f /\ good_factor f /\ vorder f = [v] /\ fvalues f v = vals /\
    data (pot f) = q /\
    forall y, In y vals -> potential_at f [(v, y)] = nth (position y vals) q 0%Qc.
Proof.
  intros ND L. unfold as_evidence. rewrite L, Nat.eqb_refl. eexists; split; [reflexivity|].
  assert (FV : fvalues (mkF (mkArr [length vals] q) [v] [(v, vals)]) v = vals).
  { unfold fvalues; cbn. rewrite String.eqb_refl. reflexivity. }
  split; [|split; [reflexivity|split; [exact FV|split; [reflexivity|]]]].
  - split; cbn [vorder fvals pot shape data dkeys map fst].
    + repeat constructor; tauto. + repeat constructor; tauto. + cbn; tauto. + rewrite FV; reflexivity.
    + cbn. lia. + intros w [<-|[]]. rewrite FV. exact ND.
  - intros y Hy. unfold potential_at; cbn. rewrite String.eqb_refl. unfold look; cbn. rewrite String.eqb_refl.
    unfold aget; cbn. rewrite Nat.mul_1_r, Nat.add_0_r. reflexivity.
Qed.

Lemma evidence_errors v vals old :
  (forall x, ~ In x vals -> as_evidence v vals (Hard x) old = Err ValueError) /\
  (forall q, length q <> length vals -> as_evidence v vals (Soft q) old = Err ValueError).
Proof.
  split.
  - intros x H. unfold as_evidence. apply index_of_None in H. rewrite H. reflexivity.
  - intros q H. unfold as_evidence. apply Nat.eqb_neq in H. rewrite H. reflexivity.
Qed.

(** from_samples *)
Definition sample_ix (vars : dict (list string)) (s : dict string) : list nat :=
  map (fun p => idx (look s (fst p)) (snd p)) vars.

Lemma sample_mapM vars s : sample_ok vars s ->
  mapM (fun p => let* x := dget_err KeyError (fst p) s in py_index x (snd p)) vars = Ok (sample_ix vars s).
Proof.
  intros H. apply mapM_total. intros [v l] Hp. destruct (H v l Hp) as (x & E & Hx).
  unfold dget_err, look; cbn. rewrite E. cbn. apply py_index_ok, Hx.
Qed.

Lemma sample_inb vars s : sample_ok vars s -> inb (map (fun p => length (snd p)) vars) (sample_ix vars s).
Proof.
  intros H. apply inb_map. intros [v l] Hp. destruct (H v l Hp) as (x & E & Hx). cbn.
  unfold look. rewrite E. apply idx_lt, Hx.
Qed.

Lemma wfa_aset a ix q : wfa a -> wfa (aset a ix q).
Proof. unfold wfa, aset; cbn. rewrite list_set_length. tauto. Qed.

Lemma ravel_inj sh i j : inb sh i -> inb sh j -> ravel sh i = ravel sh j -> i = j.
Proof.
  intros Hi Hj E. apply nth_error_ravel in Hi, Hj. rewrite E in Hi. congruence.
Qed.

Lemma aget_aset a i j q : wfa a -> inb (shape a) i -> inb (shape a) j ->
  aget (aset a i q) j = if list_eq_dec Nat.eq_dec i j then q else aget a j.
Proof.
  intros W Hi Hj. unfold aget, aset; cbn. destruct (list_eq_dec _ i j) as [->|n].
  - apply list_set_nth_eq. rewrite W. apply ravel_lt, Hj.
  - apply list_set_nth_neq. intros E. apply n. eapply ravel_inj; eassumption.
Qed.

Definition countix (vars : dict (list string)) (ss : list (dict string)) (ix : list nat) : Qc :=
  qsum (map (fun s => if list_eq_dec Nat.eq_dec (sample_ix vars s) ix then 1%Qc else 0%Qc) ss).

Lemma count_fold vars ss a : wfa a -> shape a = map (fun p => length (snd p)) vars ->
  (forall s, In s ss -> sample_ok vars s) ->
  exists c, foldM (fun a s =>
      let* ix := mapM (fun p => let* x := dget_err KeyError (fst p) s in py_index x (snd p)) vars in
      Ok (aset a ix (aget a ix + 1)%Qc)) ss a = Ok c /\ wfa c /\ shape c = shape a /\
    forall ix, inb (shape a) ix -> aget c ix = (aget a ix + countix vars ss ix)%Qc.
Proof.
  revert a. induction ss as [|s ss IH]; intros a W Sh H; cbn [foldM].
  - exists a. split; [reflexivity|]. split; [exact W|]. split; [reflexivity|]. intros ix _. cbn. ring.
  - rewrite sample_mapM by (apply H; left; reflexivity). cbn [rbind].
    set (i := sample_ix vars s). assert (Hi : inb (shape a) i) by (rewrite Sh; apply sample_inb, H; left; reflexivity).
    destruct (IH (aset a i (aget a i + 1)%Qc)) as (c & E & Wc & Sc & V).
    { apply wfa_aset, W. } { exact Sh. } { intros s' Hs'; apply H; right; exact Hs'. }
    exists c. split; [exact E|]. split; [exact Wc|]. split; [exact Sc|].
    intros ix Hix. rewrite V by exact Hix. rewrite aget_aset by assumption.
    unfold countix; cbn [map qsum]. fold i. destruct (list_eq_dec Nat.eq_dec i ix) as [<-|n]; ring.
Qed.

Lemma qnat_S n : qnat (S n) = (1 + qnat n)%Qc.
Proof.
  unfold qnat. apply Qc_is_canon. unfold Qcplus, Q2Qc. cbn [this]. rewrite !Qreduction.Qred_correct.
  rewrite Nat2Z.inj_succ, <- Z.add_1_l, inject_Z_plus. reflexivity.
Qed.

Lemma qnat_0 : qnat 0 = 0%Qc.
Proof. reflexivity. Qed.

Lemma qnat_nonneg n : (0 <= qnat n)%Qc.
Proof. induction n; [discriminate|]. rewrite qnat_S. apply Qcplus_nonneg; [discriminate|exact IHn]. Qed.

Lemma qnat_pos n : (0 < n)%nat -> (0 < qnat n)%Qc.
Proof.
  intros H. destruct n; [lia|]. rewrite qnat_S. apply Qclt_le_trans with (1 + 0)%Qc; [reflexivity|].
  apply Qcplus_le_compat; [apply Qcle_refl|apply qnat_nonneg].
Qed.

Lemma qsum_indicator {A} (P : A -> bool) l :
  qsum (map (fun x => if P x then 1%Qc else 0%Qc) l) = qnat (length (filter P l)).
Proof.
  induction l as [|x l IH]; [reflexivity|]. cbn. rewrite IH. destruct (P x); cbn.
  - rewrite qnat_S. reflexivity. - ring.
Qed.

(** All samples fall into exactly one cell. *)
Lemma qsum_cells (l : list (list nat)) i : NoDup l -> In i l ->
  qsum (map (fun ix => if list_eq_dec Nat.eq_dec i ix then 1%Qc else 0%Qc) l) = 1%Qc.
Proof.
  intros ND. induction ND as [|x l N ND IH]; intros H; [destruct H|]. cbn.
  destruct (list_eq_dec _ i x) as [->|n].
  - rewrite qsum_zero; [ring|]. intros y Hy. destruct (list_eq_dec _ x y) as [->|]; [contradiction|reflexivity].
  - destruct H as [->|H]; [congruence|]. rewrite (IH H). ring.
Qed.

Lemma countix_total vars ss : (forall s, In s ss -> sample_ok vars s) ->
  qsum (map (countix vars ss) (indices (map (fun p => length (snd p)) vars))) = qnat (length ss).
Proof.
  intros H. unfold countix. rewrite qsum_swap.
  induction ss as [|s ss IH]; cbn [map qsum length]; [reflexivity|].
  rewrite qnat_S, <- IH by (intros s' Hs'; apply H; right; exact Hs'). f_equal.
  apply qsum_cells; [apply indices_NoDup|]. apply In_indices, sample_inb, H. left; reflexivity.
Qed.

Lemma samples_named vars ss : NoDup (dkeys vars) -> (forall v l, In (v, l) vars -> NoDup l) ->
  ss <> [] -> (forall s, In s ss -> sample_ok vars s) ->
  exists f, from_samples ss vars = Ok f /\ good_factor f /\ vorder f = dkeys vars /\ fvals f = vars /\
    qsum (data (pot f)) = 1%Qc /\
    forall q, NoDup (dkeys q) -> (forall v, In v (dkeys q) <-> In v (dkeys vars)) -> legal f q ->
      potential_at f q = (qnat (length (filter (agrees q) ss)) / qnat (length ss))%Qc.
Proof.
  intros ND NV NE H. unfold from_samples.
  set (shp := map (fun p => length (snd p)) vars).
  destruct (count_fold vars ss (np_zeros shp)) as (c & E & Wc & Sc & V).
  { apply wfa_tabulate. } { reflexivity. } { exact H. }
  fold shp. rewrite E. cbn [rbind].
  assert (Zer : forall ix, inb shp ix -> aget c ix = countix vars ss ix).
  { intros ix Hix. rewrite V by exact Hix. unfold np_zeros, np_full. rewrite aget_tabulate by exact Hix. ring. }
  assert (T : asum c = qnat (length ss)).
  { rewrite asum_aget by exact Wc. rewrite Sc. cbn [np_zeros np_full shape tabulate].
    rewrite <- (countix_total vars ss H). fold shp. apply qsum_map_ext.
    intros ix Hix. apply Zer, In_indices, Hix. }
  assert (P : (0 < qnat (length ss))%Qc) by (apply qnat_pos; destruct ss; [congruence|cbn; lia]).
  rewrite T. replace (qeqb _ 0%Qc) with false by (symmetry; apply qeqb_false, Qc_pos_neq0, P).
  eexists; split; [reflexivity|].
  set (f := mkF _ _ _).
  assert (FV : forall v l, In (v, l) vars -> fvalues f v = l).
  { intros v l Hl. unfold fvalues; cbn. rewrite (In_dget v l vars ND Hl). reflexivity. }
  assert (G : good_factor f).
  { split; cbn [f vorder fvals pot amap shape].
    - exact ND. - exact ND. - tauto.
    - rewrite Sc. cbn. unfold shp, dkeys. rewrite map_map. apply map_ext_in. intros [v l] Hl. cbn.
      rewrite (FV v l Hl). reflexivity.
    - cbn. rewrite map_length. exact Wc.
    - intros v Hv. unfold dkeys in Hv. apply in_map_iff in Hv as ([w l] & <- & Hl). cbn. rewrite (FV w l Hl).
      eapply NV, Hl. }
  split; [exact G|]. split; [reflexivity|]. split; [reflexivity|]. split.
  - cbn [f pot amap data]. rewrite (qsum_map_ext _ (fun x => / qnat (length ss) * x)%Qc) by (intros; unfold Qcdiv; ring).
    rewrite qsum_mult_l, map_id. change (qsum (data c)) with (asum c). rewrite T, Qcmult_comm.
    apply Qcmult_inv_r, Qc_pos_neq0, P.
  - intros q NDq Kq L. unfold potential_at; cbn [f pot vorder fvals].
    set (ix := map _ (dkeys vars)).
    assert (Eix : ix = sample_ix vars q).
    { unfold ix, sample_ix, dkeys. rewrite map_map. apply map_ext_in. intros [v l] Hl. cbn.
      rewrite (In_dget v l vars ND Hl). reflexivity. }
    assert (Sq : sample_ok vars q).
    { intros v l Hl. destruct (L v) as (x & E1 & Hx).
      - cbn. unfold dkeys. apply in_map_iff. exists (v, l); auto.
      - exists x. split; [exact E1|]. rewrite <- (FV v l Hl). exact Hx. }
    assert (Hix : inb shp ix) by (rewrite Eix; apply sample_inb, Sq).
    rewrite aget_amap; [|exact Wc|rewrite Sc; exact Hix]. rewrite (Zer ix Hix). f_equal.
    rewrite <- qsum_indicator. unfold countix. apply qsum_map_ext. intros s Hs.
    specialize (H s Hs).
    destruct (list_eq_dec Nat.eq_dec (sample_ix vars s) ix) as [Es|Ns]; destruct (agrees q s) eqn:A; auto.
    + exfalso. rewrite Eix in Es. unfold agrees in A. apply not_true_iff_false in A. apply A.
      apply forallb_forall. intros [v x] Hq. cbn.
      assert (Hv : In v (dkeys vars)) by (apply Kq; unfold dkeys; apply in_map_iff; exists (v, x); auto).
      unfold dkeys in Hv. apply in_map_iff in Hv as ([w l] & Ew & Hl). cbn in Ew; subst w.
      destruct (H v l Hl) as (y & Ey & Hy). destruct (Sq v l Hl) as (z & Ez & Hz).
      rewrite (In_dget v x q NDq Hq) in Ez. injection Ez as <-.
      assert (X : idx y l = idx x l).
      { unfold sample_ix in Es. assert (M := proj1 map_ext_in_iff Es (v, l) Hl).
        cbn in M. unfold look in M. rewrite Ey, (In_dget v x q NDq Hq) in M. exact M. }
      unfold look. rewrite Ey. rewrite (idx_inj y x l Hy Hz X). apply String.eqb_refl.
    + exfalso. apply Ns. rewrite Eix. unfold sample_ix. apply map_ext_in. intros [v l] Hl. cbn. f_equal.
      unfold agrees in A. rewrite forallb_forall in A.
      destruct (Sq v l Hl) as (x & Ex & Hx). specialize (A (v, x) (dget_In _ _ _ Ex)). cbn in A.
      apply String.eqb_eq in A. rewrite A. unfold look. rewrite Ex. reflexivity.
Qed.

Lemma samples_bad vars ss s v l x : In s ss -> In (v, l) vars -> dget v s = Some x -> ~ In x l ->
  (forall s v l, In s ss -> In (v, l) vars -> In v (dkeys s)) ->
  from_samples ss vars = Err ValueError.
Proof.
  intros Hs Hl Ex N K. unfold from_samples.
  match goal with |- context [foldM ?F ss ?a] => set (F0 := F); set (a0 := a) end.
  assert (X : foldM F0 ss a0 = Err ValueError); [|rewrite X; reflexivity].
  assert (Y : forall s', In s' ss ->
     (exists ix, mapM (fun p => let* x := dget_err KeyError (fst p) s' in py_index x (snd p)) vars = Ok ix) \/
     mapM (fun p => let* x := dget_err KeyError (fst p) s' in py_index x (snd p)) vars = Err ValueError).
  { intros s' Hs'. assert (K' := K s'). clear - Hs' K'. induction vars as [|[w l'] vars IH]; cbn; [left; eauto|].
    destruct (dget_key w s') as [y Ey]; [eapply K'; [exact Hs'|left; reflexivity]|].
    unfold dget_err at 1 3. rewrite Ey. cbn. destruct (In_dec_s y l') as [Hy|Hy].
    - rewrite py_index_ok by exact Hy. cbn. destruct IH as [[ix E]|E].
      + intros v l0 H1 H2. eapply K'; [exact H1|right; exact H2].
      + rewrite E. left; cbn; eauto. + rewrite E. right; reflexivity.
    - rewrite py_index_err by exact Hy. right; reflexivity. }
  assert (Z : mapM (fun p => let* x := dget_err KeyError (fst p) s in py_index x (snd p)) vars = Err ValueError).
  { destruct (Y s Hs) as [[ix E]|E]; [|exact E]. exfalso. apply mapM_ok in E. clear - E Hl Ex N.
    induction E as [|[w l'] i vars ix E1 E IH]; [destruct Hl|]. destruct Hl as [Hl|Hl]; [|auto].
    inversion Hl; subst. cbn in E1. unfold dget_err in E1. rewrite Ex in E1. cbn in E1.
    rewrite py_index_err in E1 by exact N. discriminate. }
  generalize a0. clear a0 K. induction ss as [|s' ss IH]; intros a; [destruct Hs|]. cbn [foldM].
  unfold F0 at 1. destruct (Y s' (or_introl eq_refl)) as [[ix E]|E]; rewrite E; cbn [rbind]; [|reflexivity].
  destruct Hs as [->|Hs]; [congruence|]. apply IH; [exact Hs|]. intros s2 H2; apply Y; right; exact H2.
Qed.

Lemma get_potential_whole f : good_factor f ->
  get_potential f [] = Ok (pot f) /\
  data (pot f) = map (potential_at f) (states (map (fun v => (v, fvalues f v)) (vorder f))).
Proof.
  intros G. split; [|apply table_states, G]. destruct (get_potential_all f G) as (r & E & ->). exact E.
Qed.

Section SO2.
Context {SO : SetOrder}.

Lemma compatible_sym f g : compatible f g -> compatible g f.
Proof. intros C v H1 H2. symmetry. apply C; assumption. Qed.

Lemma legal_incl h f q : legal h q -> incl (vorder f) (vorder h) ->
  (forall v, In v (vorder f) -> fvalues h v = fvalues f v) -> legal f q.
Proof.
  intros L I V v Hv. destruct (L v (I v Hv)) as (x & E & Hx). exists x. split; [exact E|].
  rewrite <- V; assumption.
Qed.

Lemma mul_comm_named f g : good_factor f -> good_factor g -> compatible f g ->
  exists h k, fmul f g = Ok h /\ fmul g f = Ok k /\
    (forall v, In v (vorder h) <-> In v (vorder k)) /\
    forall q, legal h q -> legal k q -> potential_at h q = potential_at k q.
Proof.
  intros Gf Gg C. destruct (combine_named Qcmult f g Gf Gg C) as (h & E & _ & O & _ & _ & V).
  destruct (combine_named Qcmult g f Gg Gf (compatible_sym _ _ C)) as (k & E2 & _ & O2 & _ & _ & V2).
  exists h, k. split; [exact E|]. split; [exact E2|]. split.
  - intros v. rewrite O, O2. tauto.
  - intros q L L2. rewrite V, V2 by assumption. ring.
Qed.

Lemma mul_assoc_named f g h : good_factor f -> good_factor g -> good_factor h ->
  compatible f g -> compatible f h -> compatible g h ->
  exists fg gh l r, fmul f g = Ok fg /\ fmul fg h = Ok l /\ fmul g h = Ok gh /\ fmul f gh = Ok r /\
    (forall v, In v (vorder l) <-> In v (vorder r)) /\
    forall q, legal l q -> potential_at l q = potential_at r q.
Proof.
  intros Gf Gg Gh C1 C2 C3.
  destruct (combine_named Qcmult f g Gf Gg C1) as (fg & E1 & G1 & O1 & A1 & B1 & V1).
  destruct (combine_named Qcmult g h Gg Gh C3) as (gh & E2 & G2 & O2 & A2 & B2 & V2).
  destruct (combine_named Qcmult fg h G1 Gh) as (l & E3 & G3 & O3 & A3 & B3 & V3).
  { intros v H1 H2. apply O1 in H1 as H1'. destruct H1' as [H|H]; [rewrite A1 by exact H; auto|rewrite B1 by exact H; auto]. }
  destruct (combine_named Qcmult f gh Gf G2) as (r & E4 & G4 & O4 & A4 & B4 & V4).
  { intros v H1 H2. apply O2 in H2 as H2'. destruct H2' as [H|H]; [rewrite A2 by exact H; auto|rewrite B2 by exact H; auto]. }
  exists fg, gh, l, r. do 4 (split; [assumption|]).
  assert (O : forall v, In v (vorder l) <-> In v (vorder r)).
  { intros v. rewrite O3, O1, O4, O2. tauto. }
  split; [exact O|].
  assert (VF : forall v, In v (vorder f) -> fvalues l v = fvalues f v).
  { intros v H. rewrite A3, A1; auto. apply O1; tauto. }
  assert (VG : forall v, In v (vorder g) -> fvalues l v = fvalues g v).
  { intros v H. rewrite A3, B1; auto. apply O1; tauto. }
  intros q L. rewrite V3 by exact L. rewrite V1.
  2: { eapply legal_incl; [exact L|intros v H; apply O3; tauto|exact A3]. }
  rewrite V4.
  2: { intros v Hv. destruct (L v) as (x & E & Hx); [apply O, Hv|]. exists x; split; [exact E|].
       apply O4 in Hv as [H|H].
       - rewrite A4 by exact H. rewrite <- VF by exact H. exact Hx.
       - rewrite B4 by exact H. apply O2 in H as [H|H].
         + rewrite A2 by exact H. rewrite <- VG by exact H. exact Hx.
         + rewrite B2 by exact H. rewrite <- B3 by exact H. exact Hx. }
  rewrite V2.
  2: { intros v Hv. destruct (L v) as (x & E & Hx); [apply O, O4; tauto|]. exists x; split; [exact E|].
       apply O2 in Hv as [H|H].
       - rewrite A2 by exact H. rewrite <- VG by exact H. exact Hx.
       - rewrite B2 by exact H. rewrite <- B3 by exact H. exact Hx. }
  ring.
Qed.

Lemma mul_one f : good_factor f ->
  fmul (trivial 1%Qc) f = Ok f /\ fmul f (trivial 1%Qc) = Ok f.
Proof.
  intros G. destruct f as [p o vs]. unfold fmul, fcombine; cbn [trivial vorder pot fvals].
  rewrite zipb_scalar_l. cbn [rbind].
  assert (E : forall F, (forall x, F x = x) -> tabulate (shape p) (fun ix => F (aget p ix)) = p).
  { intros F HF. rewrite (tabulate_ext _ _ (aget p)) by (intros; apply HF). apply tabulate_aget. apply (gf_data _ G). }
  split.
  - rewrite (E (fun x => 1 * x)%Qc) by (intros; ring). reflexivity.
  - assert (G0 := gf_shape _ G). cbn in G0. destruct o as [|v o].
    + rewrite (wfa_rank0 p (gf_data _ G) G0), zipb_scalar_l. cbn.
      rewrite Qcmult_1_r. 
      assert (K := gf_same _ G). cbn in K. destruct vs as [|[w l] vs]; [reflexivity|].
      exfalso. apply (K w). left; reflexivity.
    + rewrite zipb_scalar_r. cbn [rbind]. rewrite (E (fun x => x * 1)%Qc) by (intros; ring). reflexivity.
Qed.
End SO2.
