(** The relative error of variable elimination in rounded arithmetic. *)
From Verif Require Import Base BaseFacts NDArray NDArrayFacts SumCalc Factor FactorFacts Exact Order Spec SpecFacts VEProof VEProof2 Rounded RoundedSpec.

(** ** The algorithms over exact operations are those of Exact.v *)
Section Same.
Context {SO : SetOrder}.

Lemma foldM_same A B (f g : A -> B -> res A) l a : (forall x y, f x y = g x y) -> foldM f l a = foldM g l a.
Proof. intros H. revert a. induction l as [|x l IH]; intros a; cbn; [reflexivity|]. rewrite H. destruct (g a x); cbn; auto. Qed.

Theorem naive_by_exact b vs ev : naive_by fmul marginalize1 normalize b vs ev = naive_marginals b vs ev.
Proof. reflexivity. Qed.

Lemma place_first_same f o bs : place_first_by fmul f o bs = place_first f o bs.
Proof. revert bs. induction o as [|v o IH]; intros [|g bs]; cbn; try reflexivity. rewrite IH. reflexivity. Qed.

Lemma mul_last_same f bs : mul_last_by fmul f bs = mul_last f bs.
Proof. induction bs as [|g bs IH]; [reflexivity|]. cbn [mul_last_by mul_last]. rewrite IH. reflexivity. Qed.

Lemma mul_at_same f bs i : mul_at_by fmul i f bs = mul_at i f bs.
Proof. revert i. induction bs as [|g bs IH]; intros [|i]; cbn; try reflexivity. rewrite IH. reflexivity. Qed.

Lemma process_same k o bs : process_by fmul marginalize1 k o bs = process k o bs.
Proof.
  revert o bs. induction k as [|k IH]; intros [|v o] [|g bs]; cbn; try reflexivity. destruct (marginalize1 g v) as [t|]; cbn; [|reflexivity].
  rewrite place_first_same, mul_last_same. destruct (match place_first t o bs with Some r => r | None => mul_last t bs end); cbn; auto.
Qed.

Lemma collect_same acc bs : collect_by fmul acc bs = collect acc bs.
Proof. revert acc. induction bs as [|g bs IH]; intros acc; cbn; [reflexivity|]. destruct (fmul g acc); cbn; auto. Qed.

Theorem bucket_core_by_exact b vs ev o : length vs <= length o -> bucket_core_by fmul marginalize1 normalize b vs ev o = bucket_core b vs ev o.
Proof.
  intros L. unfold bucket_core_by, bucket_core. apply Nat.leb_le in L. destruct (mapM (get_node b) o) as [ns|]; cbn [rbind]; [|reflexivity].
  rewrite (foldM_same _ _ (place_factor_by fmul o) (place_factor o)) by (intros; unfold place_factor_by, place_factor; rewrite place_first_same; reflexivity).
  destruct (foldM (place_factor o) _ _) as [b1|]; cbn [rbind]; [|reflexivity].
  rewrite (foldM_same _ _ (add_evidence_by fmul b o) (add_evidence b o)).
  2:{ intros x y. unfold add_evidence_by, add_evidence. destruct (py_index (fst y) o); cbn; [|reflexivity]. destruct (get_node b (fst y)) as [n|]; cbn; [|reflexivity].
      destruct (as_evidence _ _ _ _); cbn; [|reflexivity]. apply mul_at_same. }
  destruct (foldM (add_evidence b o) _ _) as [b2|]; cbn [rbind]; [|reflexivity]. rewrite process_same, L.
  destruct (process _ _ _) as [[o' b3]|]; cbn [rbind]; [|reflexivity]. destruct b3; [reflexivity|]. rewrite collect_same. reflexivity.
Qed.

Lemma move_length vs o o' : move_to_end vs o = (o', None) -> length o' = length o.
Proof.
  revert o. induction vs as [|v vs IH]; intros o; cbn; [intros E; inversion E; reflexivity|]. destruct (mem v o) eqn:M; [|discriminate]. intros E. apply IH in E.
  rewrite E, app_length. cbn. apply mem_In in M. clear - M. induction o as [|w o IHo]; [destruct M|]. cbn.
  destruct (String.eqb_spec v w) as [->|N]; cbn; [lia|]. destruct M as [M|M]; [congruence|]. specialize (IHo M). lia.
Qed.

(** [length vs <= …]: with at most as many query entries as the order has. *)
Theorem bucket_by_exact b vs ev o : (forall o', order_or_default b o = Ok o' -> length vs <= length o') ->
  bucket_by fmul marginalize1 normalize b vs ev o = bucket_query b vs ev o.
Proof.
  intros L. unfold bucket_by, bucket_query. destruct (order_or_default b o) as [o'|]; cbn; [|reflexivity]. specialize (L o' eq_refl).
  unfold bucket_marginals. destruct (move_to_end vs o') as [o2 [e|]] eqn:M; [reflexivity|]. cbn [snd]. apply bucket_core_by_exact. rewrite (move_length _ _ _ M). exact L.
Qed.
End Same.

(** ** Closeness of numbers *)
Section Close.
Context {RD : Rounding} {AD : Adding}.
Local Open Scope Qc_scope.
Notation one := (1 + ulp).

Lemma one_ge : 1 <= one.
Proof. rewrite <- (Qcplus_0_r 1) at 1. apply Qcplus_le_compat; [apply Qcle_refl|apply ulp_nonneg]. Qed.
Lemma one_nonneg : 0 <= one.
Proof. eapply Qcle_trans; [|apply one_ge]. discriminate. Qed.
Lemma power_ge k : 1 <= power one k.
Proof.
  induction k as [|k IH]; cbn; [apply Qcle_refl|]. rewrite <- (Qcmult_1_l 1). eapply Qcle_trans; [apply Qcmult_le_compat_r; [apply one_ge|discriminate]|].
  rewrite !(Qcmult_comm _ 1), (Qcmult_comm _ (power one k)). rewrite Qcmult_1_l. rewrite <- (Qcmult_1_l one) at 1. apply Qcmult_le_compat_r; [exact IH|apply one_nonneg].
Qed.
Lemma power_nonneg k : 0 <= power one k.
Proof. eapply Qcle_trans; [|apply power_ge]. discriminate. Qed.
Lemma power_add j k : power one (j + k) = power one j * power one k.
Proof. induction j as [|j IH]; cbn; [ring|]. rewrite IH. ring. Qed.
Lemma le_mul (a b c d : Qc) : 0 <= a -> 0 <= d -> a <= b -> c <= d -> a * c <= b * d.
Proof.
  intros A D H K. apply Qcle_trans with (a * d).
  - rewrite (Qcmult_comm a c), (Qcmult_comm a d). apply Qcmult_le_compat_r; assumption.
  - apply Qcmult_le_compat_r; assumption.
Qed.
Lemma power_le j k : (j <= k)%nat -> power one j <= power one k.
Proof.
  intros H. replace k with (j + (k - j))%nat by lia. rewrite power_add. rewrite <- (Qcmult_1_r (power one j)) at 1.
  apply le_mul; [apply power_nonneg|apply power_nonneg|apply Qcle_refl|apply power_ge].
Qed.

Lemma close_refl k x : 0 <= x -> close k x x.
Proof.
  intros H. assert (x <= power one k * x). { rewrite <- (Qcmult_1_l x) at 1. apply Qcmult_le_compat_r; [apply power_ge|exact H]. }
  repeat split; assumption.
Qed.
Lemma close_sym k x y : close k x y -> close k y x.
Proof. intros (A & B & C & D). repeat split; assumption. Qed.
Lemma close_mono j k x y : (j <= k)%nat -> close j x y -> close k x y.
Proof.
  intros L (A & B & C & D). repeat split; try assumption; (eapply Qcle_trans; [eassumption|apply Qcmult_le_compat_r; [apply power_le, L|assumption]]).
Qed.
Lemma close_trans j k x y z : close j x y -> close k y z -> close (j + k) x z.
Proof.
  intros (A & B & C & D) (_ & B2 & C2 & D2). repeat split; try assumption; rewrite power_add.
  - eapply Qcle_trans; [exact C2|]. replace (power one j * power one k * x) with (power one k * (power one j * x)) by ring.
    apply le_mul; [apply power_nonneg| |apply Qcle_refl|exact C]. apply Qcmult_nonneg; [apply power_nonneg|exact A].
  - eapply Qcle_trans; [exact D|]. rewrite <- Qcmult_assoc. apply le_mul; [apply power_nonneg| |apply Qcle_refl|exact D2].
    apply Qcmult_nonneg; [apply power_nonneg|exact B2].
Qed.
Lemma rnd_nonneg x : 0 <= x -> 0 <= rnd x.
Proof. intros H. rewrite <- rnd_zero. apply rnd_mono; [apply Qcle_refl|exact H]. Qed.
Lemma close_rnd x : 0 <= x -> close 1 x (rnd x).
Proof. intros H. repeat split; [exact H|apply rnd_nonneg, H| |]; cbn [power]; rewrite Qcmult_1_r; [apply rnd_below, H|apply rnd_above, H]. Qed.
Lemma close_mul j k x y x' y' : close j x x' -> close k y y' -> close (j + k) (x * y) (x' * y').
Proof.
  intros (A & B & C & D) (A2 & B2 & C2 & D2). repeat split; try (apply Qcmult_nonneg; assumption); rewrite power_add.
  - replace (power one j * power one k * (x * y)) with ((power one j * x) * (power one k * y)) by ring. apply le_mul; try assumption.
    apply Qcmult_nonneg; [apply power_nonneg|exact A2].
  - replace (power one j * power one k * (x' * y')) with ((power one j * x') * (power one k * y')) by ring. apply le_mul; try assumption.
    apply Qcmult_nonneg; [apply power_nonneg|exact B2].
Qed.
Lemma close_add k x y x' y' : close k x x' -> close k y y' -> close k (x + y) (x' + y').
Proof.
  intros (A & B & C & D) (A2 & B2 & C2 & D2). repeat split; try (apply Qcplus_nonneg; assumption); rewrite Qcmult_plus_distr_r; apply Qcplus_le_compat; assumption.
Qed.
Lemma close_pos k x y : close k x y -> (0 < x <-> 0 < y).
Proof.
  intros (A & B & C & D). split; intros H; apply Qc_nonneg_neq0_pos; try assumption; intros ->; [apply (Qclt_not_le _ _ H)|apply (Qclt_not_le _ _ H)].
  - eapply Qcle_trans; [exact D|]. rewrite Qcmult_0_r. apply Qcle_refl.
  - eapply Qcle_trans; [exact C|]. rewrite Qcmult_0_r. apply Qcle_refl.
Qed.
Lemma close_inv k x y : close k x y -> 0 < x -> close k (/ x) (/ y).
Proof.
  intros H P. assert (P2 := proj1 (close_pos _ _ _ H) P). destruct H as (A & B & C & D).
  assert (IX := Qcinv_pos _ P). assert (IY := Qcinv_pos _ P2).
  assert (EX : x * / x = 1) by (apply Qcmult_inv_r, Qc_pos_neq0, P). assert (EY : y * / y = 1) by (apply Qcmult_inv_r, Qc_pos_neq0, P2).
  repeat split; try (apply Qclt_le_weak; assumption).
  - replace (/ y) with (x * (/ x * / y)) by (rewrite Qcmult_assoc, EX; ring).
    replace (power one k * / x) with (power one k * y * (/ x * / y)). 2:{ transitivity (power one k * / x * (y * / y)); [ring|]. rewrite EY. ring. }
    apply Qcmult_le_compat_r; [exact D|]. apply Qcmult_nonneg; apply Qclt_le_weak; assumption.
  - replace (/ x) with (y * (/ x * / y)). 2:{ transitivity (/ x * (y * / y)); [ring|]. rewrite EY. ring. }
    replace (power one k * / y) with (power one k * x * (/ x * / y)). 2:{ transitivity (power one k * / y * (x * / x)); [ring|]. rewrite EX. ring. }
    apply Qcmult_le_compat_r; [exact C|]. apply Qcmult_nonneg; apply Qclt_le_weak; assumption.
Qed.

(** ** Sums *)
Lemma tree_close k l l' : (forall i, close k (nth i l 0) (nth i l' 0)) ->
  forall t, close (k + length (leaves t)) (qsum (map (fun i => nth i l 0) (leaves t))) (radd_tree t l').
Proof.
  intros H. induction t as [i|a IHa c IHc]; cbn [leaves map length radd_tree].
  - cbn [qsum]. rewrite Qcplus_0_r. apply (close_mono k); [lia|apply H].
  - rewrite map_app, qsum_app, app_length.
    assert (PA : (0 < length (leaves a))%nat). { clear. induction a; cbn; [lia|]. rewrite app_length. lia. }
    assert (PC : (0 < length (leaves c))%nat). { clear. induction c; cbn; [lia|]. rewrite app_length. lia. }
    set (m := (k + (length (leaves a) + length (leaves c) - 1))%nat).
    assert (S : close m (qsum (map (fun i => nth i l 0) (leaves a)) + qsum (map (fun i => nth i l 0) (leaves c))) (radd_tree a l' + radd_tree c l')).
    { apply close_add; [eapply close_mono; [|exact IHa]|eapply close_mono; [|exact IHc]]; unfold m; lia. }
    apply (close_mono (m + 1)); [unfold m; lia|]. eapply close_trans; [exact S|]. apply close_rnd. apply S.
Qed.

Lemma forall2_nth k l l' : Forall2 (close k) l l' -> forall i, close k (nth i l 0) (nth i l' 0).
Proof. induction 1 as [|x y l l' H HL IH]; intros [|i]; cbn; auto; apply close_refl; apply Qcle_refl. Qed.

Lemma map_nth_seq (l : list Qc) : map (fun i => nth i l 0) (seq 0 (length l)) = l.
Proof.
  induction l as [|x l IH]; cbn [length seq map]; [reflexivity|]. cbn [nth]. f_equal. rewrite <- seq_shift, map_map. cbn [nth]. exact IH.
Qed.

Lemma forall2_length A B (R : A -> B -> Prop) l l' : Forall2 R l l' -> length l = length l'.
Proof. induction 1; cbn; congruence. Qed.

Lemma rsum_close k tag l l' : Forall2 (close k) l l' -> close (k + length l) (qsum l) (rsum tag l').
Proof.
  intros H. assert (L := forall2_length _ _ _ _ _ H). unfold rsum. destruct l' as [|y l'].
  - destruct l; [|discriminate]. apply close_refl. apply Qcle_refl.
  - assert (P := plan_ok (length (y :: l')) tag ltac:(cbn; lia)).
    assert (C := tree_close k l (y :: l') (forall2_nth _ _ _ H) (plan (length (y :: l')) tag)).
    assert (E : qsum (map (fun i => nth i l 0) (leaves (plan (length (y :: l')) tag))) = qsum l).
    { rewrite (qsum_perm _ _ (Permutation_map (fun i => nth i l 0) P)), <- L. rewrite map_nth_seq. reflexivity. }
    rewrite E, (Permutation_length P), seq_length in C. rewrite L. exact C.
Qed.

(** ** Arrays *)
Definition anear (k : nat) (a a' : ndarray) : Prop := shape a = shape a' /\ Forall2 (close k) (data a) (data a').

Lemma anear_get k a a' i : anear k a a' -> close k (aget a i) (aget a' i).
Proof. intros [S D]. unfold aget. rewrite <- S. apply forall2_nth, D. Qed.
Lemma tabulate_near k s F F' : (forall i, close k (F i) (F' i)) -> anear k (tabulate s F) (tabulate s F').
Proof. intros H. split; [reflexivity|]. cbn. induction (indices s); cbn; constructor; auto. Qed.
Lemma anear_expand k a a' n : anear k a a' -> anear k (expand a n) (expand a' n).
Proof. intros [S D]. split; [cbn; rewrite S; reflexivity|exact D]. Qed.
Lemma anear_transpose k a a' p r : anear k a a' -> transpose a p = Ok r -> exists r', transpose a' p = Ok r' /\ anear k r r'.
Proof.
  intros N. assert (S := proj1 N). unfold transpose, rank. rewrite <- S. destruct (is_perm _ p); [|discriminate]. intros E; inversion E; subst.
  eexists; split; [reflexivity|]. apply tabulate_near. intros i. apply anear_get, N.
Qed.
Lemma anear_zipb j k a a' c c' r : anear j a a' -> anear k c c' -> zipb Qcmult a c = Ok r ->
  exists r', zipb (fun x y => rnd (x * y)) a' c' = Ok r' /\ anear (j + k + 1) r r'.
Proof.
  intros N M. assert (S := proj1 N). assert (S2 := proj1 M). unfold zipb, rank. rewrite <- S, <- S2. destruct (bshape _ _) as [s|]; cbn; [|discriminate].
  intros E; inversion E; subst. eexists; split; [reflexivity|]. apply tabulate_near. intros i.
  assert (H : close (j + k) (bget a i * bget c i) (bget a' i * bget c' i)).
  { apply close_mul; unfold bget, rank; [rewrite <- S|rewrite <- S2]; apply anear_get; assumption. }
  eapply close_trans; [exact H|]. apply close_rnd. apply H.
Qed.
End Close.

(** ** Factors *)
Section Factors.
Context {RD : Rounding} {AD : Adding} {SO : SetOrder}.
Variable dom : string -> list string.

Record near (k : nat) (f f' : factor) : Prop := {
  nr_wf : wf_factor dom f;
  nr_order : vorder f' = vorder f;
  nr_vals : fvals f' = fvals f;
  nr_pot : anear k (pot f) (pot f')
}.

Lemma anear_mono j k a a' : j <= k -> anear j a a' -> anear k a a'.
Proof. intros L [S D]. split; [exact S|]. induction D; constructor; auto. eapply close_mono; eassumption. Qed.

Lemma near_mono j k f f' : j <= k -> near j f f' -> near k f f'.
Proof. intros L [W O V P]. split; try assumption. exact (anear_mono _ _ _ _ L P). Qed.

Lemma near_refl f : wf_factor dom f -> Forall (fun x => (0 <= x)%Qc) (data (pot f)) -> near 0 f f.
Proof. intros W N. split; try reflexivity; [exact W|]. split; [reflexivity|]. induction N; constructor; [apply close_refl|]; assumption. Qed.

Lemma near_mul j k f f' g g' h : near j f f' -> near k g g' -> fmul f g = Ok h -> exists h', rmul f' g' = Ok h' /\ near (j + k + 1) h h'.
Proof.
  intros N M E. assert (WH : wf_factor dom h).
  { destruct (fcombine_spec dom Qcmult f g (nr_wf _ _ _ N) (nr_wf _ _ _ M)) as (h2 & E2 & W2 & _). unfold fmul in E. rewrite E2 in E. inversion E; subst. exact W2. }
  destruct N as [Wf Of Vf Pf], M as [Wg Og Vg Pg]. unfold fmul, rmul, fcombine in *. rewrite Of, Og, Vf, Vg.
  destruct (vorder f) as [|v vs] eqn:EO.
  - destruct (zipb Qcmult (pot f) (pot g)) as [r|] eqn:Z; [|discriminate]. cbn in E. inversion E; subst.
    destruct (anear_zipb _ _ _ _ _ _ _ Pf Pg Z) as (r' & Z' & N). rewrite Z'. eexists; split; [reflexivity|]. split; auto.
  - destruct (vorder g) as [|w ws] eqn:EG.
    + destruct (zipb Qcmult (pot f) (pot g)) as [r|] eqn:Z; [|discriminate]. cbn in E. inversion E; subst.
      destruct (anear_zipb _ _ _ _ _ _ _ Pf Pg Z) as (r' & Z' & N). rewrite Z'. eexists; split; [reflexivity|]. split; auto.
    + destruct (add_vals _ _ _) as [rv|]; cbn [rbind] in *; [|discriminate]. destruct (mapM _ _) as [sw|]; cbn [rbind] in *; [|discriminate].
      match type of E with context [transpose ?a sw] => destruct (transpose a sw) as [p2|] eqn:T; cbn [rbind] in E; [|discriminate];
        destruct (anear_transpose k a (expand (pot g') (length (sdiff ((v :: vs) ++ sdiff (w :: ws) (v :: vs)) (w :: ws)))) sw p2) as (p2' & T' & N2); [apply anear_expand, Pg|exact T|] end.
      rewrite T'. cbn [rbind].
      match type of E with context [zipb Qcmult ?a ?c] => destruct (zipb Qcmult a c) as [r|] eqn:Z; cbn [rbind] in E; [|discriminate] end.
      destruct (anear_zipb j k _ (expand (pot f') (length (sdiff (w :: ws) (v :: vs)))) _ p2' r (anear_expand _ _ _ _ Pf) N2 Z) as (r' & Z' & N). rewrite Z'. cbn.
      inversion E; subst. eexists; split; [reflexivity|]. split; auto.
Qed.

Lemma near_marg k f f' v h : near k f f' -> In v (vorder f) -> marginalize1 f v = Ok h -> exists h', rmarg f' v = Ok h' /\ near (k + length (dom v)) h h'.
Proof.
  intros N Hv E. assert (WH : wf_factor dom h).
  { destruct (marginalize1_spec dom f v (nr_wf _ _ _ N) Hv) as (h2 & E2 & W2 & _). rewrite E2 in E. inversion E; subst. exact W2. }
  destruct N as [W O V P]. unfold marginalize1, rmarg in *. rewrite O, V. rewrite py_index_ok in * by exact Hv. cbn [rbind] in *.
  destruct (dmem v (fvals f)); [|discriminate]. inversion E; subst. eexists; split; [reflexivity|]. split; auto. cbn [pot].
  unfold sum_axis, rsum_axis. rewrite <- (proj1 P). apply tabulate_near. intros i.
  assert (L : length (dom v) = nth (idx v (vorder f)) (shape (pot f)) 0).
  { rewrite (wf_shape _ _ W). unfold card.
    rewrite (nth_indep _ _ (length (dom ""))) by (rewrite map_length; apply idx_lt, Hv). rewrite (map_nth (fun w => length (dom w))). rewrite nth_idx by exact Hv. reflexivity. }
  unfold bigsum. rewrite L. set (n := nth _ _ _).
  replace n with (length (map (fun i0 => aget (pot f) (list_insert (idx v (vorder f)) i0 i)) (seq 0 n))) at 1 by (rewrite map_length, seq_length; reflexivity).
  apply rsum_close. induction (seq 0 n); cbn; constructor; auto. apply anear_get, P.
Qed.

Lemma near_norm k f f' : near k f f' -> near (2 * k + length (data (pot f)) + 1) (normalize f) (rnormalize f').
Proof.
  intros N. assert (WH := proj1 (normalize_spec dom f (nr_wf _ _ _ N))). destruct N as [W O V P].
  assert (S : close (k + length (data (pot f))) (asum (pot f)) (rsum [] (data (pot f')))) by (apply rsum_close, P).
  assert (B : qltb 0 (rsum [] (data (pot f'))) = qltb 0 (asum (pot f))).
  { apply Bool.eq_iff_eq_true. rewrite !qltb_true. symmetry. eapply close_pos, S. }
  unfold rnormalize. rewrite B. split.
  - exact WH.
  - unfold normalize. destruct (qltb 0 (asum (pot f))); exact O.
  - unfold normalize. destruct (qltb 0 (asum (pot f))); exact V.
  - unfold normalize. destruct (qltb 0 (asum (pot f))) eqn:Q; [|cbn [pot]; apply (anear_mono k); [lia|exact P]].
    apply qltb_true in Q. cbn [pot]. split; [exact (proj1 P)|]. cbn [amap data].
    remember (length (data (pot f))) as n eqn:En. clear En B. destruct P as [_ P]. revert S. generalize (rsum [] (data (pot f'))) as s. intros s S.
    induction P as [|x y l l' H HL IH]; cbn; constructor; auto.
    assert (C : close (k + (k + n)) (x / asum (pot f)) (y / s)).
    { apply close_mul; [exact H|]. apply close_inv; [exact S|exact Q]. }
    apply (close_mono (k + (k + n) + 1)); [lia|]. eapply close_trans; [exact C|]. apply close_rnd. apply C.
Qed.

(** ** Lists of buckets *)
Inductive bnear : nat -> list factor -> list factor -> Prop :=
| bn_nil t : bnear t [] []
| bn_cons j t f f' bs bs' : near j f f' -> bnear t bs bs' -> bnear (j + t) (f :: bs) (f' :: bs').

Lemma bnear_mono t u bs bs' : t <= u -> bnear t bs bs' -> bnear u bs bs'.
Proof.
  intros L B. revert u L. induction B as [t|j t f f' bs bs' N B IH]; intros u L; [constructor|].
  replace u with (j + (u - j)) by lia. constructor; [exact N|]. apply IH. lia.
Qed.

Lemma near_place k t f f' o bs bs' : near k f f' -> bnear t bs bs' ->
  (place_first f o bs = None -> place_first_by rmul f' o bs' = None) /\
  (forall l, place_first f o bs = Some (Ok l) -> exists l', place_first_by rmul f' o bs' = Some (Ok l') /\ bnear (t + k + 1) l l').
Proof.
  intros N B. revert o. induction B as [t|j t g g' bs bs' M B IH]; intros [|v o]; cbn [place_first place_first_by]; try (split; [reflexivity|intros l E; discriminate]).
  assert (F : fcontains v f' = fcontains v f) by (unfold fcontains; rewrite (nr_vals _ _ _ N); reflexivity). rewrite F.
  destruct (fcontains v f).
  - split; [discriminate|]. intros l E. destruct (fmul g f) as [h|] eqn:EM; cbn in E; inversion E; subst.
    destruct (near_mul _ _ _ _ _ _ _ M N EM) as (h' & EM' & NH). rewrite EM'. cbn. eexists; split; [reflexivity|].
    apply (bnear_mono ((j + k + 1) + t)); [lia|]. constructor; assumption.
  - destruct (IH o) as [I1 I2]. destruct (place_first f o bs) as [[l|e]|].
    + split; [discriminate|]. intros l2 E. cbn in E. inversion E; subst. destruct (I2 l eq_refl) as (l' & E' & B'). rewrite E'. cbn. eexists; split; [reflexivity|].
      apply (bnear_mono (j + (t + k + 1))); [lia|]. constructor; assumption.
    + split; [discriminate|]. intros l2 E. discriminate.
    + rewrite I1 by reflexivity. split; [reflexivity|discriminate].
Qed.

Lemma near_last k t f f' bs bs' l : near k f f' -> bnear t bs bs' -> mul_last f bs = Ok l -> exists l', mul_last_by rmul f' bs' = Ok l' /\ bnear (t + k + 1) l l'.
Proof.
  intros N B. revert l. induction B as [t|j t g g' bs bs' M B IH]; intros l E; [discriminate|]. cbn [mul_last mul_last_by] in *. destruct B as [t|i t g2 g2' bs bs' M2 B].
  - destruct (fmul g f) as [h|] eqn:EM; cbn in E; inversion E; subst. destruct (near_mul _ _ _ _ _ _ _ M N EM) as (h' & EM' & NH). rewrite EM'. cbn.
    eexists; split; [reflexivity|]. apply (bnear_mono ((j + k + 1) + t)); [lia|]. constructor; [exact NH|constructor].
  - destruct (mul_last f (g2 :: bs)) as [l2|] eqn:E2; cbn [rbind] in E; inversion E; subst. destruct (IH l2 eq_refl) as (l' & E' & B'). rewrite E'. cbn.
    eexists; split; [reflexivity|]. apply (bnear_mono (j + (i + t + k + 1))); [lia|]. constructor; assumption.
Qed.

Lemma near_at k t f f' bs bs' i l : near k f f' -> bnear t bs bs' -> mul_at i f bs = Ok l -> exists l', mul_at_by rmul i f' bs' = Ok l' /\ bnear (t + k + 1) l l'.
Proof.
  intros N B. revert i l. induction B as [t|j t g g' bs bs' M B IH]; intros [|i] l E; cbn [mul_at mul_at_by] in *; try discriminate.
  - destruct (fmul g f) as [h|] eqn:EM; cbn in E; inversion E; subst. destruct (near_mul _ _ _ _ _ _ _ M N EM) as (h' & EM' & NH). rewrite EM'. cbn.
    eexists; split; [reflexivity|]. apply (bnear_mono ((j + k + 1) + t)); [lia|]. constructor; assumption.
  - destruct (mul_at i f bs) as [l2|] eqn:E2; cbn [rbind] in E; inversion E; subst. destruct (IH i l2 E2) as (l' & E' & B'). rewrite E'. cbn.
    eexists; split; [reflexivity|]. apply (bnear_mono (j + (t + k + 1))); [lia|]. constructor; assumption.
Qed.

Lemma near_factors o fs bs bs' t l : Forall (fun f => near 0 f f) fs -> bnear t bs bs' -> foldM (place_factor o) fs bs = Ok l ->
  exists l', foldM (place_factor_by rmul o) fs bs' = Ok l' /\ bnear (t + length fs) l l'.
Proof.
  intros NF. revert t bs bs'. induction NF as [|f fs N NF IH]; intros t bs bs' B E; cbn [foldM length] in *.
  - inversion E; subst. eexists; split; [reflexivity|]. eapply bnear_mono; [|exact B]. lia.
  - unfold place_factor at 1 in E. unfold place_factor_by at 1. destruct (near_place 0 t f f o bs bs' N B) as [P1 P2].
    destruct (place_first f o bs) as [[b1|]|]; cbn [rbind] in E; [|discriminate|].
    + destruct (P2 b1 eq_refl) as (b1' & E1 & B1). rewrite E1. cbn [rbind]. destruct (IH _ _ _ B1 E) as (l' & E' & BL). exists l'. split; [exact E'|].
      eapply bnear_mono; [|exact BL]. lia.
    + rewrite P1 by reflexivity. cbn [rbind]. destruct (IH _ _ _ B E) as (l' & E' & BL). exists l'. split; [exact E'|]. eapply bnear_mono; [|exact BL]. lia.
Qed.

Lemma near_evidence (b : bn) o (ev : evidence) bs bs' t l :
  (forall v e n ef, In (v, e) ev -> get_node b v = Ok n -> as_evidence v (dn_values n) e None = Ok ef -> near 0 ef ef) ->
  bnear t bs bs' -> foldM (add_evidence b o) ev bs = Ok l ->
  exists l', foldM (add_evidence_by rmul b o) ev bs' = Ok l' /\ bnear (t + length ev) l l'.
Proof.
  revert t bs bs'. induction ev as [|[v e] ev IH]; intros t bs bs' NE B E; cbn [foldM length] in *.
  - inversion E; subst. eexists; split; [reflexivity|]. eapply bnear_mono; [|exact B]. lia.
  - unfold add_evidence at 1 in E. unfold add_evidence_by at 1. cbn [fst snd] in *. destruct (py_index v o) as [i|]; cbn [rbind] in *; [|discriminate].
    destruct (get_node b v) as [n|] eqn:G; cbn [rbind] in *; [|discriminate]. destruct (as_evidence v (dn_values n) e None) as [ef|] eqn:A; cbn [rbind] in *; [|discriminate].
    assert (N := NE v e n ef (or_introl eq_refl) G A). destruct (mul_at i ef bs) as [b1|] eqn:M; cbn [rbind] in E; [|discriminate].
    destruct (near_at _ _ _ _ _ _ _ _ N B M) as (b1' & E1 & B1). rewrite E1. cbn [rbind].
    destruct (IH _ _ _ (fun v e n ef H => NE v e n ef (or_intror H)) B1 E) as (l' & E' & BL). exists l'. split; [exact E'|]. eapply bnear_mono; [|exact BL]. lia.
Qed.

Lemma near_process k o bs bs' t o2 l : bnear t bs bs' -> process k o bs = Ok (o2, l) ->
  exists l', process_by rmul rmarg k o bs' = Ok (o2, l') /\ bnear (t + length (firstn k o) + sumn (map (fun v => length (dom v)) (firstn k o))) l l'.
Proof.
  revert o bs bs' t. induction k as [|k IH]; intros o bs bs' t B E.
  - cbn in *. inversion E; subst. eexists; split; [reflexivity|]. eapply bnear_mono; [|exact B]. lia.
  - destruct o as [|v o]; [cbn in *; inversion E; subst; eexists; split; [reflexivity|]; eapply bnear_mono; [|exact B]; lia|].
    destruct B as [t|j t f f' bs bs' N B]; [cbn in *; inversion E; subst; eexists; split; [reflexivity|]; constructor|].
    cbn [process process_by firstn map sumn fold_right length] in *. destruct (marginalize1 f v) as [tmp|] eqn:M; cbn [rbind] in E; [|discriminate].
    assert (Hv : In v (vorder f)).
    { destruct (In_dec_s v (vorder f)) as [I|I]; [exact I|]. exfalso. unfold marginalize1 in M. destruct (py_index v (vorder f)) as [i|] eqn:PI; [|discriminate].
      unfold py_index in PI. destruct (index_of v (vorder f)) as [i2|] eqn:IO; [|discriminate]. apply index_of_Some in IO as [IO _]. apply nth_error_In in IO. contradiction. }
    destruct (near_marg _ _ _ _ _ N Hv M) as (tmp' & M' & NT). rewrite M'. cbn [rbind].
    destruct (near_place _ _ _ _ o _ _ NT B) as [P1 P2].
    assert (X : forall b2, match place_first tmp o bs with Some r => r | None => mul_last tmp bs end = Ok b2 ->
      exists b2', match place_first_by rmul tmp' o bs' with Some r => r | None => mul_last_by rmul tmp' bs' end = Ok b2' /\ bnear (t + (j + length (dom v)) + 1) b2 b2').
    { intros b2. destruct (place_first tmp o bs) as [[b3|]|].
      - intros Q; inversion Q; subst. destruct (P2 b2 eq_refl) as (b2' & E2 & B2). rewrite E2. eauto.
      - discriminate.
      - rewrite P1 by reflexivity. intros Q. exact (near_last _ _ _ _ _ _ _ NT B Q). }
    destruct (match place_first tmp o bs with Some r => r | None => mul_last tmp bs end) as [b2|]; cbn [rbind] in E; [|discriminate].
    destruct (X b2 eq_refl) as (b2' & E2 & B2). rewrite E2. cbn [rbind]. destruct (IH _ _ _ _ B2 E) as (l' & E' & BL). exists l'. split; [exact E'|].
    eapply bnear_mono; [|exact BL]. unfold sumn. lia.
Qed.

Lemma near_collect acc acc' k bs bs' t h : near k acc acc' -> bnear t bs bs' -> collect acc bs = Ok h ->
  exists h', collect_by rmul acc' bs' = Ok h' /\ near (k + t + length bs) h h'.
Proof.
  intros N B. revert acc acc' k N. induction B as [t|j t f f' bs bs' M B IH]; intros acc acc' k N E; cbn [collect collect_by length] in *.
  - inversion E; subst. eexists; split; [reflexivity|]. eapply near_mono; [|exact N]. lia.
  - destruct (fmul f acc) as [g|] eqn:Q; cbn [rbind] in E; [|discriminate]. destruct (near_mul _ _ _ _ _ _ _ M N Q) as (g' & Q' & NG). rewrite Q'. cbn [rbind].
    destruct (IH _ _ _ NG E) as (h' & E' & NH). exists h'. split; [exact E'|]. eapply near_mono; [|exact NH]. lia.
Qed.

Lemma bnear_init n : bnear 0 (repeat (trivial 1%Qc) n) (repeat (trivial 1%Qc) n).
Proof.
  induction n as [|n IH]; cbn; [constructor|]. change 0 with (0 + 0). constructor; [|exact IH]. apply near_refl; [apply wf_trivial|]. constructor; [discriminate|constructor].
Qed.
End Factors.

(** ** The two algorithms *)
Section Main.
Context {RD : Rounding} {AD : Adding} {SO : SetOrder}.
Variable b : bn.
Hypothesis WB : wf_bn b.
Hypothesis NN : nonneg_bn b.
Variable ev : evidence.
Hypothesis EV : ev_ok b ev.
Notation dom := (values_of b).

Lemma near_node n : In n (bnodes b) -> near dom 0 (from_node n) (from_node n).
Proof. intros H. apply near_refl; [apply (wf_from_node b WB n H)|]. exact (NN n H). Qed.

Lemma get_node_In v n : get_node b v = Ok n -> In n (bnodes b) /\ dn_name n = v.
Proof. unfold get_node. destruct (find _ _) eqn:F; [|discriminate]. intros E; inversion E; subst. apply find_some in F as [I Q]. apply String.eqb_eq in Q. auto. Qed.

Lemma near_ev v e n ef : In (v, e) ev -> get_node b v = Ok n -> as_evidence v (dn_values n) e None = Ok ef -> near dom 0 ef ef.
Proof.
  intros I G A. apply get_node_In in G as [Hn <-]. assert (D : dget (dn_name n) ev = Some e) by (apply In_dget; [apply EV|exact I]).
  destruct (as_evidence_spec b WB ev EV n e Hn D) as (ef2 & A2 & W2 & _). rewrite A in A2. inversion A2; subst ef2. apply near_refl; [exact W2|].
  assert (IN : In (dn_name n) (bnames b)) by (apply in_map, Hn). unfold as_evidence in A. destruct e as [x|q].
  - destruct (index_of x (dn_values n)) as [i|]; [|discriminate]. inversion A; subst. cbn [pot data]. apply Forall_forall. intros y Hy.
    apply In_nth with (d := 0%Qc) in Hy as (m & Hm & <-). rewrite list_set_length, repeat_length in Hm. destruct (Nat.eq_dec m i) as [->|NE].
    + rewrite list_set_nth_eq by (rewrite repeat_length; exact Hm). discriminate.
    + rewrite list_set_nth_neq by congruence. rewrite nth_repeat. apply Qcle_refl.
  - destruct (Nat.eqb _ _); [|discriminate]. inversion A; subst. cbn [pot data]. destruct EV as [_ EO]. specialize (EO _ _ I IN). apply EO.
Qed.

Lemma near_naive_fold vs f f' k h : incl vs (bnames b) -> near dom k f f' -> foldM (naive_step b ev) vs f = Ok h ->
  exists h', foldM (naive_step_by rmul b ev) vs f' = Ok h' /\ near dom (k + length vs + length (filter (fun v => dmem v ev) vs)) h h'.
Proof.
  revert f f' k. induction vs as [|v vs IH]; intros f f' k I N E; cbn [foldM length filter] in *.
  - inversion E; subst. eexists; split; [reflexivity|]. eapply near_mono; [|exact N]. lia.
  - unfold naive_step at 1 in E. unfold naive_step_by at 1. destruct (get_node b v) as [n|] eqn:G; cbn [rbind] in *; [|discriminate].
    destruct (fmul f (from_node n)) as [f1|] eqn:M1; cbn [rbind] in E; [|discriminate]. assert (Hn := get_node_In _ _ G).
    destruct (near_mul dom _ _ _ _ _ _ _ N (near_node n (proj1 Hn)) M1) as (f1' & M1' & N1). rewrite M1'. cbn [rbind]. unfold dmem.
    destruct (dget v ev) as [e|] eqn:D.
    + destruct (as_evidence v (dn_values n) e None) as [ef|] eqn:A; cbn [rbind] in *; [|discriminate].
      destruct (fmul f1 ef) as [f2|] eqn:M2; cbn [rbind] in E; [|discriminate].
      assert (NE := near_ev v e n ef (dget_In _ _ _ D) G A). destruct (near_mul dom _ _ _ _ _ _ _ N1 NE M2) as (f2' & M2' & N2). rewrite M2'. cbn [rbind].
      destruct (IH _ _ _ (fun x H => I x (or_intror H)) N2 E) as (h' & E' & NH). exists h'. split; [exact E'|]. cbn [length]. eapply near_mono; [|exact NH]. unfold dmem. lia.
    + cbn [rbind] in E. destruct (IH _ _ _ (fun x H => I x (or_intror H)) N1 E) as (h' & E' & NH). exists h'. split; [exact E'|]. eapply near_mono; [|exact NH]. unfold dmem. lia.
Qed.

Lemma near_marg_fold vs f f' k h : near dom k f f' -> foldM marginalize1 vs f = Ok h -> exists h', foldM rmarg vs f' = Ok h' /\ near dom (k + sumn (sizes b vs)) h h'.
Proof.
  revert f f' k. induction vs as [|v vs IH]; intros f f' k N E; cbn [foldM sizes map sumn fold_right] in *.
  - inversion E; subst. eexists; split; [reflexivity|]. eapply near_mono; [|exact N]. lia.
  - destruct (marginalize1 f v) as [g|] eqn:M; cbn [rbind] in E; [|discriminate].
    assert (Hv : In v (vorder f)).
    { destruct (In_dec_s v (vorder f)) as [I|I]; [exact I|]. exfalso. unfold marginalize1 in M. unfold py_index in M.
      destruct (index_of v (vorder f)) as [i2|] eqn:IO; [|discriminate]. apply index_of_Some in IO as [IO _]. apply nth_error_In in IO. contradiction. }
    destruct (near_marg dom _ _ _ _ _ N Hv M) as (g' & M' & NG). rewrite M'. cbn [rbind]. destruct (IH _ _ _ NG E) as (h' & E' & NH). exists h'. split; [exact E'|].
    eapply near_mono; [|exact NH]. unfold sumn, sizes. lia.
Qed.

(** Rounded results against reports of exact ones. *)
Lemma near_reports k r r' Q P : near dom k r r' -> reports b r Q P ->
  reports b r' Q (potential_at r') /\ forall q, is_inst b Q q -> close k (P q) (potential_at r' q).
Proof.
  intros N (R1 & R2 & R3 & R4 & R5 & R6 & R7). destruct N as [W O V PT]. split.
  - unfold reports. rewrite O, V. destruct PT as [S D]. rewrite <- S. split; [exact R1|]. split; [exact R2|]. split; [exact R3|]. split; [exact R4|]. split; [exact R5|].
    split; [|reflexivity]. rewrite <- (forall2_length _ _ _ _ _ D). exact R6.
  - intros q Hq. rewrite <- (R7 q Hq). unfold potential_at. rewrite O, V. apply anear_get, PT.
Qed.

Lemma reports_size r Q P : NoDup Q -> reports b r Q P -> length (data (pot r)) = prodn (sizes b Q).
Proof.
  intros ND (R1 & R2 & _ & _ & R5 & R6 & _). rewrite R6, R5. unfold sizes.
  assert (PM : Permutation (vorder r) Q) by (apply NoDup_Permutation; assumption).
  clear - PM. induction PM; cbn; try lia.
Qed.

Lemma normalize_size f : length (data (pot (normalize f))) = length (data (pot f)).
Proof. unfold normalize. destruct (qltb _ _); cbn; [apply map_length|reflexivity]. Qed.

Theorem naive_rounded Q : NoDup Q -> incl Q (bnames b) ->
  exists r, rounded_naive b Q ev = Ok r /\ reports b r Q (potential_at r) /\
    forall q, is_inst b Q q ->
      close (2 * (length (bnodes b) + length (filter (fun v => dmem v ev) (bnames b)) + sumn (sizes b (filter (fun v => negb (mem v Q)) (bnames b)))) + prodn (sizes b Q) + 1)
        (posterior b ev q) (potential_at r q).
Proof.
  intros ND I. destruct (naive_reports b WB Q ev NN EV I) as (r & E & R). unfold naive_marginals in E. unfold rounded_naive, naive_by.
  destruct (foldM (naive_step b ev) (bnames b) (trivial 1%Qc)) as [f|] eqn:F; cbn [rbind] in E; [|discriminate].
  assert (NT : near dom 0 (trivial 1%Qc) (trivial 1%Qc)) by (apply near_refl; [apply wf_trivial|constructor; [discriminate|constructor]]).
  destruct (near_naive_fold _ _ _ _ _ (incl_refl _) NT F) as (f' & F' & NF). rewrite F'. cbn [rbind].
  destruct (foldM marginalize1 _ f) as [g|] eqn:G; cbn [rbind] in E; [|discriminate]. destruct (near_marg_fold _ _ _ _ _ NF G) as (g' & G' & NG). rewrite G'. cbn [rbind].
  inversion E; subst r. assert (NR := near_norm dom _ _ _ NG). eexists; split; [reflexivity|]. assert (SZ := reports_size _ _ _ ND R). rewrite normalize_size in SZ.
  destruct (near_reports _ _ _ _ _ NR R) as [R1 R2]. split; [exact R1|]. intros q Hq. eapply close_mono; [|exact (R2 q Hq)]. rewrite SZ. unfold bnames at 1. rewrite map_length. cbn [length]. lia.
Qed.

Lemma buckets_length ns o' b1 b2 : foldM (place_factor o') (map from_node ns) (repeat (trivial 1%Qc) (S (length o'))) = Ok b1 -> foldM (add_evidence b o') ev b1 = Ok b2 ->
  length b2 = S (length o').
Proof.
  intros F1 F2. clear EV. assert (PF : forall f k l m, place_first f k l = Some (Ok m) -> length m = length l).
      { intros f k. induction k as [|v k IH]; intros [|g l] m E; cbn in E; try discriminate. destruct (fcontains v f).
        - destruct (fmul g f); cbn in E; inversion E; reflexivity.
        - destruct (place_first f k l) as [[m2|]|] eqn:E2; cbn in E; inversion E; subst. cbn. f_equal. eapply IH, E2. }
      assert (MA : forall f i l m, mul_at i f l = Ok m -> length m = length l).
      { intros f i l. revert i. induction l as [|g l IH]; intros [|i] m E; cbn in E; try discriminate.
        - destruct (fmul g f); cbn in E; inversion E; subst; reflexivity.
        - destruct (mul_at i f l) as [m2|] eqn:E2; cbn in E; inversion E; subst. cbn. f_equal. eapply IH, E2. }
      assert (L1 : length b1 = S (length o')).
      { rewrite <- (repeat_length (trivial 1%Qc) (S (length o'))). revert F1. generalize (repeat (trivial 1%Qc) (S (length o'))). induction (map from_node ns) as [|f fs IH]; intros l E; cbn in E; [inversion E; reflexivity|].
        unfold place_factor at 1 in E. destruct (place_first f o' l) as [[m|]|] eqn:P; cbn in E; [|discriminate|].
        - rewrite (IH _ E). eapply PF, P. - apply IH, E. }
      rewrite <- L1. clear L1 F1. revert b1 F2. induction ev as [|p e IH]; intros b1 E; cbn in E; [inversion E; reflexivity|].
      destruct (add_evidence b o' b1 p) as [m|] eqn:P; cbn in E; [|discriminate]. rewrite (IH _ E). unfold add_evidence in P.
      destruct (py_index (fst p) o'); cbn in P; [|discriminate]. destruct (get_node b (fst p)); cbn in P; [|discriminate]. destruct (as_evidence _ _ _ _); cbn in P; [|discriminate]. eapply MA, P.
Qed.

Lemma process_length : forall k o b2 o2 b3, process k o b2 = Ok (o2, b3) -> k <= length o -> length b2 = S (length o) -> length b3 = S (length o - k).
Proof.
  induction k as [|k IH]; intros o b2 o2 b3 E L Z; [cbn in E; inversion E; subst; lia|]. destruct o as [|v o]; [cbn in L; lia|]. destruct b2 as [|f b2]; [discriminate|].
      cbn [process] in E. destruct (marginalize1 f v) as [tmp|]; cbn [rbind] in E; [|discriminate].
      destruct (match place_first tmp o b2 with Some r => r | None => mul_last tmp b2 end) as [b4|] eqn:P; cbn [rbind] in E; [|discriminate].
      assert (Z4 : length b4 = length b2).
      { destruct (place_first tmp o b2) as [[m|]|] eqn:PF; [inversion P; subst| discriminate|].
        - clear - PF. revert b2 b4 PF. induction o as [|w o IH]; intros [|g b2] b4 E; cbn in E; try discriminate. destruct (fcontains w tmp).
          + destruct (fmul g tmp); cbn in E; inversion E; reflexivity.
          + destruct (place_first tmp o b2) as [[m2|]|] eqn:E2; cbn in E; inversion E; subst. cbn. f_equal. eapply IH, E2.
        - clear - P. revert b4 P. induction b2 as [|g b2 IH]; intros b4 E; cbn [mul_last] in E; [discriminate|]. destruct b2 as [|g2 b2].
          + destruct (fmul g tmp); cbn in E; inversion E; reflexivity.
          + destruct (mul_last tmp (g2 :: b2)) as [m2|]; cbn [rbind] in E; inversion E; subst. cbn [length]. f_equal. apply IH. reflexivity. }
      cbn in L, Z. rewrite (IH _ _ _ _ E) by lia. cbn. reflexivity.
Qed.

Theorem bucket_rounded Q o o' l : NoDup Q -> incl Q (bnames b) -> move_to_end Q o = (o', None) -> Permutation o (bnames b) -> NoDup l ->
  o' = l ++ Q -> (exists r, bucket_core b Q ev o' = Ok r /\ reports b r Q (posterior b ev)) ->
  exists r, bucket_core_by rmul rmarg rnormalize b Q ev o' = Ok r /\ reports b r Q (potential_at r) /\
    forall q, is_inst b Q q ->
      close (2 * (2 * length (bnodes b) + length ev + sumn (sizes b l)) + prodn (sizes b Q) + 1) (posterior b ev q) (potential_at r q).
Proof.
  intros ND I MV PM NL EO (r & E & R). assert (LO := move_length _ _ _ MV). assert (LN := Permutation_length PM). unfold bnames in LN. rewrite map_length in LN.
  unfold bucket_core in E. unfold bucket_core_by. destruct (mapM (get_node b) o') as [ns|] eqn:MN; cbn [rbind] in *; [|discriminate].
  assert (FN : Forall (fun f => near dom 0 f f) (map from_node ns) /\ length ns = length o').
  { clear - MN WB NN. revert ns MN. generalize o' as k. intros k. induction k as [|v k IH]; intros ns E; cbn [mapM] in E; [inversion E; split; [constructor|reflexivity]|].
    destruct (get_node b v) as [n|] eqn:G; cbn in E; [|discriminate]. destruct (mapM (get_node b) k) as [m|]; cbn in E; [|discriminate]. inversion E; subst.
    destruct (IH m eq_refl). split; [|cbn; congruence]. constructor; [|assumption]. apply near_node, (get_node_In _ _ G). }
  destruct FN as [FN LF]. destruct (foldM (place_factor o') _ _) as [b1|] eqn:F1; cbn [rbind] in E; [|discriminate].
  destruct (near_factors dom _ _ _ _ 0 _ FN (bnear_init dom _) F1) as (b1' & F1' & B1). rewrite F1'. cbn [rbind].
  destruct (foldM (add_evidence b o') ev b1) as [b2|] eqn:F2; cbn [rbind] in E; [|discriminate].
  destruct (near_evidence dom b _ _ _ _ _ _ near_ev B1 F2) as (b2' & F2' & B2). rewrite F2'. cbn [rbind].
  destruct (process _ o' b2) as [[o2 b3]|] eqn:PR; cbn [rbind] in E; [|discriminate].
  destruct (near_process dom _ _ _ _ _ _ _ B2 PR) as (b3' & PR' & B3). rewrite PR'. cbn [rbind].
  assert (LQ : length Q <= length o') by (rewrite EO, app_length; lia). rewrite (proj2 (Nat.leb_le _ _) LQ) in E.
  assert (L3 : length b3 <= S (length Q)).
  { rewrite (process_length _ _ _ _ _ PR); [lia|lia|]. exact (buckets_length _ _ _ _ F1 F2). }
  inversion B3 as [t0 ET E3 E3'|j t f f' bs bs' N3 BS ET E3 E3']; subst b3 b3'; [discriminate|].
  destruct (collect f bs) as [g|] eqn:CO; cbn [rbind] in E; [|discriminate]. destruct (near_collect dom _ _ _ _ _ _ _ N3 BS CO) as (g' & CO' & NG). rewrite CO'. cbn [rbind].
  inversion E; subst r. assert (NR := near_norm dom _ _ _ NG). eexists; split; [reflexivity|]. assert (SZ := reports_size _ _ _ ND R). rewrite normalize_size in SZ.
  destruct (near_reports _ _ _ _ _ NR R) as [R1 R2]. split; [exact R1|]. intros q Hq. eapply close_mono; [|exact (R2 q Hq)]. rewrite SZ.
  assert (FQ : firstn (length o' - length Q) o' = l).
  { rewrite EO, app_length. replace (length l + length Q - length Q) with (length l + 0) by lia. rewrite firstn_app_2. cbn. apply app_nil_r. }
  rewrite FQ in ET. cbn [length] in L3. rewrite map_length in ET. fold (sizes b l) in ET. assert (LL : length o' = length l + length Q) by (rewrite EO; apply app_length).
  unfold sizes in *. lia.
Qed.
End Main.
