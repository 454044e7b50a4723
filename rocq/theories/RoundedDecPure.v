(** Numbers of either sign in rounded arithmetic: the error is measured against the size
    the number would have if nothing cancelled. *)
From Verif Require Import Base BaseFacts NDArray NDArrayFacts SumCalc Factor FactorFacts Spec SpecFacts Rounded RoundedSpec RoundedProof RoundedTree RoundedDec RoundedDecSpec.
From Coq Require Import Field.
Local Open Scope Qc_scope.

Lemma qleb_false x y : qleb x y = false -> y < x.
Proof. intros E. destruct (Qclt_le_dec y x) as [L|L]; [exact L|]. apply qleb_true in L. congruence. Qed.
Lemma mag_nonneg x : 0 <= magnitude x.
Proof. unfold magnitude. destruct (qleb 0 x) eqn:E; [apply qleb_true, E|]. apply qleb_false in E. apply Qclt_le_weak in E. apply Qcopp_le_compat in E. exact E. Qed.
Lemma mag_le x : x <= magnitude x.
Proof. unfold magnitude. destruct (qleb 0 x) eqn:E; [apply Qcle_refl|]. apply qleb_false in E. apply Qclt_le_weak in E. eapply Qcle_trans; [exact E|]. apply Qcopp_le_compat in E. exact E. Qed.
Lemma mag_ge x : - magnitude x <= x.
Proof. unfold magnitude. destruct (qleb 0 x) eqn:E; [|rewrite Qcopp_involutive; apply Qcle_refl]. apply qleb_true in E. eapply Qcle_trans; [|exact E]. apply Qcopp_le_compat in E. exact E. Qed.
Lemma mag_bound x e : magnitude x <= e <-> - e <= x /\ x <= e.
Proof.
  split.
  - intros H. split; [eapply Qcle_trans; [apply Qcopp_le_compat, H|apply mag_ge]|eapply Qcle_trans; [apply mag_le|exact H]].
  - intros [A B]. unfold magnitude. destruct (qleb 0 x); [exact B|]. apply Qcopp_le_compat in A. rewrite Qcopp_involutive in A. exact A.
Qed.
Lemma mag_opp x : magnitude (- x) = magnitude x.
Proof.
  assert (G : forall y, magnitude (- y) <= magnitude y).
  { intros y. apply mag_bound. split; [apply Qcopp_le_compat, mag_le|]. rewrite <- (Qcopp_involutive (magnitude y)). apply Qcopp_le_compat, mag_ge. }
  apply Qcle_antisym; [apply G|]. specialize (G (- x)). rewrite Qcopp_involutive in G. exact G.
Qed.
Lemma mag_plus x y : magnitude (x + y) <= magnitude x + magnitude y.
Proof.
  apply mag_bound. split; [|apply Qcplus_le_compat; apply mag_le].
  replace (- (magnitude x + magnitude y)) with (- magnitude x + - magnitude y) by ring. apply Qcplus_le_compat; apply mag_ge.
Qed.
Lemma mag_pos x : 0 <= x -> magnitude x = x.
Proof. intros H. unfold magnitude. apply qleb_true in H. rewrite H. reflexivity. Qed.
Lemma mag_scale c x : 0 <= c -> magnitude (c * x) = c * magnitude x.
Proof.
  intros C. apply Qcle_antisym.
  - apply mag_bound. replace (- (c * magnitude x)) with (c * - magnitude x) by ring. rewrite !(Qcmult_comm c). split; apply Qcmult_le_compat_r; auto using mag_le, mag_ge.
  - unfold magnitude at 1. destruct (qleb 0 x); [apply mag_le|]. replace (c * - x) with (- (c * x)) by ring. rewrite <- mag_opp. apply mag_le.
Qed.

Section Tri.
Context {RD : Rounding} {SY : Symmetric RD} {AD : Adding}.
Notation one := (1 + ulp).

Lemma rel_nonneg k : 0 <= relative k.
Proof. unfold relative. apply -> Qcle_minus_iff. apply power_ge. Qed.
Lemma rel_mono j k : (j <= k)%nat -> relative j <= relative k.
Proof. intros L. unfold relative. apply Qcplus_le_compat; [apply power_le, L|apply Qcle_refl]. Qed.
Lemma rel_zero : relative 0 = 0.
Proof. unfold relative. cbn. ring. Qed.

Lemma rnd_signed x : magnitude (rnd x - x) <= ulp * magnitude x.
Proof.
  assert (P : forall y, 0 <= y -> magnitude (rnd y - y) <= ulp * y).
  { intros y Y. apply mag_bound. assert (B := rnd_below y Y). assert (A := rnd_above y Y). assert (U := ulp_nonneg). split.
    - assert (R : rnd y <= y \/ y <= rnd y) by (destruct (Qclt_le_dec (rnd y) y) as [H|H]; [left; apply Qclt_le_weak, H|right; exact H]). destruct R as [R|R].
      + replace (- (ulp * y)) with (y - one * y) by ring. replace (rnd y - y) with (rnd y - y + 0) by ring.
        apply Qcle_trans with (one * rnd y - one * y); [apply Qcplus_le_compat; [exact A|apply Qcle_refl]|].
        replace (one * rnd y - one * y) with (rnd y - y + ulp * (rnd y - y)) by ring. apply Qcplus_le_compat; [apply Qcle_refl|].
        replace 0 with (ulp * 0) by ring. rewrite !(Qcmult_comm ulp). apply Qcmult_le_compat_r; [|exact U]. apply Qcle_minus_iff. replace (0 + - (rnd y - y)) with (y + - rnd y) by ring. apply -> Qcle_minus_iff. exact R.
      + apply Qcle_trans with 0; [|apply -> Qcle_minus_iff; exact R]. assert (Z : 0 <= ulp * y) by (apply Qcmult_nonneg; assumption). apply Qcopp_le_compat in Z. exact Z.
    - replace (ulp * y) with (one * y - y) by ring. apply Qcplus_le_compat; [exact B|apply Qcle_refl]. }
  destruct (Qclt_le_dec x 0) as [X|X].
  - assert (Y : 0 <= - x) by (apply Qclt_le_weak, Qcopp_le_compat in X; exact X). specialize (P _ Y). rewrite rnd_opp in P.
    replace (- rnd x - - x) with (- (rnd x - x)) in P by ring. rewrite mag_opp in P. rewrite <- (mag_opp x), (mag_pos (- x) Y). exact P.
  - rewrite (mag_pos x X). apply P, X.
Qed.

(** [y] is a rounded [x], where [a] bounds what went into [x]. *)
Definition tri (k : nat) (x a y : Qc) : Prop := magnitude x <= a /\ magnitude (y - x) <= relative k * a.

Lemma tri_scale k x a y : tri k x a y -> 0 <= a.
Proof. intros [A _]. eapply Qcle_trans; [apply mag_nonneg|exact A]. Qed.
Lemma tri_refl k x : tri k x (magnitude x) x.
Proof. split; [apply Qcle_refl|]. replace (x - x) with 0 by ring. rewrite mag_pos by apply Qcle_refl. apply Qcmult_nonneg; [apply rel_nonneg|apply mag_nonneg]. Qed.
Lemma tri_zero k : tri k 0 0 0.
Proof. split; [apply Qcle_refl|]. replace (0 - 0) with 0 by ring. rewrite Qcmult_0_r. apply Qcle_refl. Qed.
Lemma tri_mono j k x a y : (j <= k)%nat -> tri j x a y -> tri k x a y.
Proof. intros L T. assert (Z := tri_scale _ _ _ _ T). destruct T as [A B]. split; [exact A|]. eapply Qcle_trans; [exact B|]. apply Qcmult_le_compat_r; [apply rel_mono, L|exact Z]. Qed.
Lemma tri_add k x a y x' a' y' : tri k x a y -> tri k x' a' y' -> tri k (x + x') (a + a') (y + y').
Proof.
  intros [A B] [A' B']. split; [eapply Qcle_trans; [apply mag_plus|apply Qcplus_le_compat; assumption]|].
  replace (y + y' - (x + x')) with (y - x + (y' - x')) by ring. eapply Qcle_trans; [apply mag_plus|]. rewrite Qcmult_plus_distr_r. apply Qcplus_le_compat; assumption.
Qed.
Lemma tri_rnd k x a y : tri k x a y -> tri (k + 1) x a (rnd y).
Proof.
  intros T. assert (Z := tri_scale _ _ _ _ T). destruct T as [A B]. split; [exact A|].
  replace (rnd y - x) with (rnd y - y + (y - x)) by ring. eapply Qcle_trans; [apply mag_plus|].
  assert (Y : magnitude y <= power one k * a).
  { replace y with (x + (y - x)) by ring. eapply Qcle_trans; [apply mag_plus|]. replace (power one k * a) with (a + relative k * a) by (unfold relative; ring). apply Qcplus_le_compat; assumption. }
  replace (relative (k + 1) * a) with (ulp * (power one k * a) + relative k * a) by (unfold relative; rewrite power_add; cbn [power]; ring).
  apply Qcplus_le_compat; [|exact B]. eapply Qcle_trans; [apply rnd_signed|]. rewrite !(Qcmult_comm ulp). apply Qcmult_le_compat_r; [exact Y|apply ulp_nonneg].
Qed.
Lemma close_diff j P P' : close j P P' -> magnitude (P' - P) <= relative j * P.
Proof.
  intros (A & B & C & D). apply mag_bound. split.
  - replace (P' - P) with (- (P - P')) by ring. apply Qcopp_le_compat.
    destruct (Qclt_le_dec P P') as [L|L].
    + apply Qcle_trans with 0; [|apply Qcmult_nonneg; [apply rel_nonneg|exact A]]. apply Qclt_le_weak in L. apply Qcle_minus_iff. replace (0 + - (P - P')) with (P' + - P) by ring. apply -> Qcle_minus_iff. exact L.
    + apply Qcle_trans with (power one j * P' - P'); [apply Qcplus_le_compat; [exact D|apply Qcle_refl]|].
      replace (power one j * P' - P') with (relative j * P') by (unfold relative; ring). rewrite !(Qcmult_comm (relative j)). apply Qcmult_le_compat_r; [exact L|apply rel_nonneg].
  - replace (relative j * P) with (power one j * P - P) by (unfold relative; ring). apply Qcplus_le_compat; [exact C|apply Qcle_refl].
Qed.
Lemma tri_mul j k P P' x a y : close j P P' -> tri k x a y -> tri (j + k) (P * x) (P * a) (P' * y).
Proof.
  intros C T. assert (Z := tri_scale _ _ _ _ T). assert (CD := close_diff _ _ _ C). destruct C as (A & B & C & D), T as [E F]. split.
  - rewrite mag_scale by exact A. rewrite !(Qcmult_comm P). apply Qcmult_le_compat_r; assumption.
  - replace (P' * y - P * x) with (P' * (y - x) + (P' - P) * x) by ring. eapply Qcle_trans; [apply mag_plus|].
    replace (relative (j + k) * (P * a)) with (power one j * P * (relative k * a) + relative j * P * a) by (unfold relative; rewrite power_add; ring).
    apply Qcplus_le_compat.
    + rewrite mag_scale by exact B. apply le_mul; [exact B|apply Qcmult_nonneg; [apply rel_nonneg|exact Z]|exact C|exact F].
    + assert (M : magnitude ((P' - P) * x) = magnitude (P' - P) * magnitude x).
      { destruct (Qclt_le_dec (P' - P) 0) as [L|L].
        - assert (Y : 0 <= - (P' - P)) by (apply Qclt_le_weak, Qcopp_le_compat in L; exact L).
          rewrite <- (mag_opp (P' - P)), (mag_pos _ Y), <- mag_scale by exact Y. rewrite <- (mag_opp ((P' - P) * x)). f_equal. ring.
        - rewrite (mag_pos _ L). apply mag_scale, L. }
      rewrite M. apply le_mul; [apply mag_nonneg|exact Z|exact CD|exact E].
Qed.

(** Sums. *)
Lemma tree_tri k l la l' : (forall i, tri k (nth i l 0) (nth i la 0) (nth i l' 0)) ->
  forall t, tri (k + length (leaves t)) (qsum (map (fun i => nth i l 0) (leaves t))) (qsum (map (fun i => nth i la 0) (leaves t))) (radd_tree t l').
Proof.
  intros H. induction t as [i|a IHa c IHc]; cbn [leaves map length radd_tree].
  - cbn [qsum]. rewrite !Qcplus_0_r. apply (tri_mono k); [lia|apply H].
  - rewrite !map_app, !qsum_app, app_length.
    assert (PA : (0 < length (leaves a))%nat). { clear. induction a; cbn; [lia|]. rewrite app_length. lia. }
    assert (PC : (0 < length (leaves c))%nat). { clear. induction c; cbn; [lia|]. rewrite app_length. lia. }
    set (m := (k + (length (leaves a) + length (leaves c) - 1))%nat).
    apply (tri_mono (m + 1)); [unfold m; lia|]. apply tri_rnd, tri_add; [eapply tri_mono; [|exact IHa]|eapply tri_mono; [|exact IHc]]; unfold m; lia.
Qed.

Lemma rsum_tri k tag n F A F' : (forall i, (i < n)%nat -> tri k (F i) (A i) (F' i)) ->
  tri (k + n) (bigsum n F) (bigsum n A) (rsum tag (map F' (seq 0 n))).
Proof.
  intros H. unfold bigsum, rsum. destruct n as [|n].
  - cbn [seq map qsum]. apply tri_zero.
  - set (N := S n) in *. assert (NZ : (0 < N)%nat) by (unfold N; lia).
    assert (E : match map F' (seq 0 N) with [] => 0 | _ :: _ => radd_tree (plan (length (map F' (seq 0 N))) tag) (map F' (seq 0 N)) end = radd_tree (plan N tag) (map F' (seq 0 N))).
    { rewrite map_length, seq_length. destruct (map F' (seq 0 N)) eqn:X; [|reflexivity]. apply (f_equal (@length Qc)) in X. rewrite map_length, seq_length in X. unfold N in X. discriminate. }
    rewrite E. clear E. assert (P := plan_ok N tag NZ).
    assert (G : forall (f : nat -> Qc) i, (i < N)%nat -> nth i (map f (seq 0 N)) 0 = f i).
    { intros f i L. rewrite (nth_indep _ 0 (f 0%nat)) by (rewrite map_length, seq_length; exact L). rewrite map_nth, seq_nth by exact L. reflexivity. }
    assert (T := tree_tri k (map F (seq 0 N)) (map A (seq 0 N)) (map F' (seq 0 N))).
    assert (T0 : forall i, tri k (nth i (map F (seq 0 N)) 0) (nth i (map A (seq 0 N)) 0) (nth i (map F' (seq 0 N)) 0)).
    { intros i. destruct (Nat.lt_ge_cases i N) as [L|L]; [rewrite !G by exact L; apply H, L|]. rewrite !nth_overflow by (rewrite map_length, seq_length; exact L). apply tri_zero. }
    specialize (T T0 (plan N tag)). rewrite (Permutation_length P), seq_length in T.
    rewrite (qsum_perm _ _ (Permutation_map (fun i => nth i (map F (seq 0 N)) 0) P)), (qsum_perm _ _ (Permutation_map (fun i => nth i (map A (seq 0 N)) 0) P)) in T.
    assert (Q : forall f : nat -> Qc, map (fun i => nth i (map f (seq 0 N)) 0) (seq 0 N) = map f (seq 0 N)).
    { intros f. apply map_ext_in. intros i Hi. apply in_seq in Hi. apply G. lia. }
    rewrite !Q in T. exact T.
Qed.

Lemma rsum_close_ix k tag n F F' : (forall i, (i < n)%nat -> close k (F i) (F' i)) -> close (k + n) (bigsum n F) (rsum tag (map F' (seq 0 n))).
Proof.
  intros H. unfold bigsum. assert (X : length (map F (seq 0 n)) = n) by (rewrite map_length; apply seq_length). rewrite <- X at 1. apply rsum_close.
  assert (G : forall l, (forall i, In i l -> (i < n)%nat) -> Forall2 (close k) (map F l) (map F' l)).
  { induction l as [|i l IH]; intros L; cbn; constructor; [apply H, L; left; reflexivity|apply IH; intros j Hj; apply L; right; exact Hj]. }
  apply G. intros i Hi. apply in_seq in Hi. lia.
Qed.

(** The inverse, with the inverse of zero zero. *)
Lemma close_inv0 k x y : close k x y -> close (k + 1) (/ x) (if qeqb y 0 then 0 else rnd (/ y)).
Proof.
  intros C. assert (P := close_pos _ _ _ C). destruct (Qc_eq_dec x 0) as [->|NZ].
  - assert (y = 0) as ->.
    { destruct (Qc_eq_dec y 0) as [E|N]; [exact E|]. assert (Y : 0 < y) by (apply Qc_nonneg_neq0_pos; [apply C|exact N]). apply P in Y. destruct (Qc_lt_irrefl _ Y). }
    cbn. apply close_refl, Qcle_refl.
  - assert (X : 0 < x) by (apply Qc_nonneg_neq0_pos; [apply C|exact NZ]). assert (Y := proj1 P X). rewrite (proj2 (qeqb_false y 0)) by (apply Qc_pos_neq0, Y).
    eapply close_trans; [apply (close_inv _ _ _ C X)|]. apply close_rnd. apply Qclt_le_weak, Qcinv_pos, Y.
Qed.
End Tri.

(** ** Operations on factors *)
Section Ops.
Variable dom : string -> list string.
Context {RD : Rounding} {AD : Adding} {SO : SetOrder}.
Notation card := (card dom).

Lemma rmarg_spec f v : wf_factor dom f -> In v (vorder f) ->
  exists h tag, rmarg f v = Ok h /\ wf_factor dom h /\ vorder h = remove1 v (vorder f) /\
    forall a, inrange card (vorder h) a -> feval h a = rsum (tag a) (map (fun i => feval f (upd a v i)) (seq 0 (card v))).
Proof.
  intros W H. unfold rmarg. rewrite py_index_ok by exact H. cbn [rbind].
  assert (K : dmem v (fvals f) = true) by (apply dmem_In, (wf_keys _ _ W), H). rewrite K.
  assert (Sh : list_del (idx v (vorder f)) (shape (pot f)) = map card (remove1 v (vorder f))).
  { rewrite (wf_shape _ _ W), list_del_map. f_equal. symmetry. apply remove1_list_del. apply py_index_Ok_iff, py_index_ok, H. }
  eexists. exists (fun a => idx v (vorder f) :: map a (remove1 v (vorder f))). split; [reflexivity|]. split; [|split].
  - unfold rsum_axis. rewrite Sh. apply wf_tabulate.
    + apply remove1_NoDup, W.
    + apply ddel_NoDup, W.
    + intros w. rewrite dkeys_ddel, !remove1_In by apply W. rewrite (wf_keys _ _ W). tauto.
    + intros w Hw. apply remove1_In in Hw as [Hw n]; [|apply W]. rewrite dget_ddel_neq by exact n. apply W, Hw.
  - reflexivity.
  - intros a R. cbn [vorder] in R. unfold rsum_axis. rewrite Sh, feval_tabulate by exact R.
    rewrite (wf_shape _ _ W). rewrite (nth_indep (map card (vorder f)) 0%nat (card "")) by (rewrite map_length; apply idx_lt, H).
    rewrite (map_nth card), nth_idx by exact H. f_equal. apply map_ext. intros i. unfold feval. f_equal. apply (list_insert_upd dom); [exact (wf_nodup _ _ W)|exact H].
Qed.

Lemma rinvert_spec f : wf_factor dom f -> (vorder f = [] -> feval f (fun _ => 0%nat) <> 0) ->
  exists h, rinvert f = Ok h /\ wf_factor dom h /\ vorder h = vorder f /\ fvals h = fvals f /\
    forall a, inrange card (vorder f) a -> feval h a = if qeqb (feval f a) 0 then 0 else rnd (/ feval f a).
Proof.
  intros W T. unfold rinvert. destruct (vorder f) as [|v l] eqn:E.
  - assert (P := wfa_rank0 _ (wf_arr _ _ W)). rewrite (wf_shape _ _ W), E in P. specialize (P eq_refl).
    specialize (T eq_refl). assert (T' := T). unfold feval in T. rewrite E in T. cbn in T.
    assert (X : existsb (fun x => qeqb x 0) (data (pot f)) = false).
    { rewrite P. cbn [scalar data existsb]. rewrite orb_false_r. apply qeqb_false, T. }
    rewrite X. eexists; split; [reflexivity|]. rewrite <- E. split; [apply (wf_amap dom), W|]. split; [reflexivity|]. split; [reflexivity|].
    intros a R. rewrite feval_amap with (dom := dom) by assumption. replace (feval f a) with (feval f (fun _ => 0%nat)) by (apply feval_deps; rewrite E; intros ? []).
    rewrite (proj2 (qeqb_false _ 0) T'). reflexivity.
  - rewrite <- E. eexists; split; [reflexivity|]. split; [apply (wf_amap dom), W|]. split; [reflexivity|]. split; [reflexivity|].
    intros a R. rewrite feval_amap with (dom := dom) by assumption. reflexivity.
Qed.

Lemma rdiv_spec f g : wf_factor dom f -> wf_factor dom g -> incl (vorder g) (vorder f) -> (vorder g = [] -> feval g (fun _ => 0%nat) <> 0) ->
  exists h, div_by rmul rinvert f g = Ok h /\ wf_factor dom h /\ (forall v, In v (vorder h) <-> In v (vorder f)) /\
    forall a, inrange card (vorder h) a -> feval h a = rnd (feval f a * (if qeqb (feval g a) 0 then 0 else rnd (/ feval g a))).
Proof.
  intros Wf Wg I T. unfold div_by. replace (subset _ _) with true.
  2:{ symmetry; apply subset_spec. intros v Hv. apply (wf_keys _ _ Wf), I, (wf_keys _ _ Wg), Hv. }
  destruct (rinvert_spec g Wg T) as (i & Ei & Wi & Oi & _ & Vi). rewrite Ei. cbn [rbind].
  destruct (fcombine_spec dom (fun x y => rnd (x * y)) f i Wf Wi) as (h & Eh & Wh & _ & Oh & Vh).
  exists h. split; [exact Eh|]. split; [exact Wh|]. split.
  - intros v. rewrite Oh, Oi. split; [intros [H|H]; auto|auto].
  - intros a R. rewrite Vh by exact R. f_equal. f_equal. apply Vi. intros v Hv. apply R, Oh. right; rewrite Oi; exact Hv.
Qed.
End Ops.
