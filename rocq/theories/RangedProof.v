(** Variable elimination in arithmetic of limited range is that of Rounded.v when the
    range suffices. *)
From Verif Require Import Base BaseFacts NDArray NDArrayFacts SumCalc Factor FactorFacts Exact Order OrderSpec OrderProof Spec SpecFacts VEProof VEProof2
  Rounded RoundedSpec RoundedProof RoundedTop Ranged RangedSpec.

(** ** Powers *)
Section Powers.
Local Open Scope Qc_scope.
Lemma pw_add x j k : power x (j + k) = power x j * power x k.
Proof. induction j as [|j IH]; cbn; [ring|]. rewrite IH. ring. Qed.
Lemma pw_ge x k : 1 <= x -> 1 <= power x k.
Proof.
  intros H. induction k as [|k IH]; cbn; [apply Qcle_refl|]. rewrite <- (Qcmult_1_l 1). apply le_mul; [discriminate| |exact H|exact IH]. eapply Qcle_trans; [|exact IH]. discriminate.
Qed.
Lemma pw_nonneg x k : 1 <= x -> 0 <= power x k.
Proof. intros H. eapply Qcle_trans; [|apply pw_ge, H]. discriminate. Qed.
Lemma pw_le x j k : 1 <= x -> (j <= k)%nat -> power x j <= power x k.
Proof.
  intros X H. replace k with (j + (k - j))%nat by lia. rewrite pw_add. rewrite <- (Qcmult_1_r (power x j)) at 1.
  apply le_mul; [apply pw_nonneg, X|apply pw_nonneg, X|apply Qcle_refl|apply pw_ge, X].
Qed.
Lemma le_1_mul a b : 1 <= a -> 1 <= b -> 1 <= a * b.
Proof. intros A B. rewrite <- (Qcmult_1_l 1). apply le_mul; try assumption; [discriminate|]. eapply Qcle_trans; [|exact B]. discriminate. Qed.
End Powers.

(** ** Magnitudes of exact numbers *)
Section Mag.
Context {RD : Rounding} {LM : Limits} {AD : Adding}.
Variable P : Qc.
Hypothesis P1 : (1 <= P)%Qc.
Local Open Scope Qc_scope.
Notation two := (1 + 1).
Notation one := (1 + ulp).

Definition mag (p s : nat) (x : Qc) : Prop := x = 0 \/ (1 <= x * power P p /\ x <= power P p * power two s).
Definition fits (p s k : nat) : Prop := power P p * power two s * power one k <= top.

Lemma two_ge : 1 <= two. Proof. discriminate. Qed.
Hint Resolve P1 two_ge one_ge : pw.

Lemma fits_down p s k p' s' k' : (p' <= p)%nat -> (s' <= s)%nat -> (k' <= k)%nat -> fits p s k -> fits p' s' k'.
Proof.
  intros A B C F. eapply Qcle_trans; [|exact F]. assert (X := pw_le P p' p P1 A). assert (Y := pw_le two s' s two_ge B). assert (Z := pw_le one k' k one_ge C).
  assert (N1 := pw_nonneg P p' P1). assert (N2 := pw_nonneg two s' two_ge). assert (N3 := pw_nonneg one k' one_ge).
  assert (N4 := pw_nonneg two s two_ge). assert (N5 := pw_nonneg one k one_ge).
  apply le_mul; try assumption; [apply Qcmult_nonneg; assumption|]. apply le_mul; assumption.
Qed.

Lemma mag_zero p s : mag p s 0. Proof. left; reflexivity. Qed.
Lemma mag_nonneg p s x : mag p s x -> 0 <= x.
Proof.
  intros [->|[A _]]; [apply Qcle_refl|]. destruct (Qclt_le_dec x 0) as [L|L]; [|exact L]. exfalso.
  assert (H : x * power P p <= 0 * power P p) by (apply Qcmult_le_compat_r; [apply Qclt_le_weak, L|apply pw_nonneg, P1]).
  rewrite Qcmult_0_l in H. assert (B := Qcle_trans _ _ _ A H). destruct (B eq_refl).
Qed.
Lemma mag_mono p s p' s' x : (p <= p')%nat -> (s <= s')%nat -> mag p s x -> mag p' s' x.
Proof.
  intros A B M. assert (X0 := mag_nonneg _ _ _ M). destruct M as [->|[C D]]; [apply mag_zero|]. right. split.
  - eapply Qcle_trans; [exact C|]. apply le_mul; [exact X0|apply pw_nonneg, P1|apply Qcle_refl|apply pw_le; assumption].
  - eapply Qcle_trans; [exact D|]. apply le_mul; [apply pw_nonneg, P1|apply pw_nonneg, two_ge|apply pw_le; assumption|apply pw_le; [apply two_ge|assumption]].
Qed.
Lemma mag_mul p s q t x y : mag p s x -> mag q t y -> mag (p + q) (s + t) (x * y).
Proof.
  intros M N. assert (X0 := mag_nonneg _ _ _ M). assert (Y0 := mag_nonneg _ _ _ N). destruct M as [->|[A B]]; [rewrite Qcmult_0_l; apply mag_zero|]. destruct N as [->|[C D]]; [rewrite Qcmult_0_r; apply mag_zero|].
  right. rewrite !pw_add. split.
  - replace (x * y * (power P p * power P q)) with ((x * power P p) * (y * power P q)) by ring. apply le_1_mul; assumption.
  - replace (power P p * power P q * (power two s * power two t)) with ((power P p * power two s) * (power P q * power two t)) by ring.
    apply le_mul; try assumption. eapply Qcle_trans; [exact Y0|exact D].
Qed.
Lemma mag_add p s t x y : mag p s x -> mag p s y -> (s < t)%nat -> mag p t (x + y).
Proof.
  intros M N L. assert (X0 := mag_nonneg _ _ _ M). assert (Y0 := mag_nonneg _ _ _ N). destruct M as [->|[A B]]; [rewrite Qcplus_0_l; eapply mag_mono; [| |exact N]; lia|].
  right. split.
  - eapply Qcle_trans; [exact A|]. apply Qcmult_le_compat_r; [|apply pw_nonneg, P1]. rewrite <- (Qcplus_0_r x) at 1. apply Qcplus_le_compat; [apply Qcle_refl|exact Y0].
  - assert (Y : y <= power P p * power two s). { destruct N as [->|[_ D]]; [apply Qcmult_nonneg; apply pw_nonneg; [exact P1|apply two_ge]|exact D]. }
    eapply Qcle_trans; [apply Qcplus_le_compat; [exact B|exact Y]|]. replace (power P p * power two s + power P p * power two s) with (power P p * (power two (S s))) by (cbn [power]; ring).
    apply le_mul; [apply pw_nonneg, P1|apply pw_nonneg, two_ge|apply Qcle_refl|apply pw_le; [apply two_ge|lia]].
Qed.

(** Rounded numbers near exact ones of known magnitude are in range. *)
Lemma inside_of M k x y : x = 0 \/ (1 <= x * M /\ x <= M) -> 0 <= M -> close k x y -> M * power one k <= top -> lim y = rnd y.
Proof.
  intros H M0 C F. assert (CP := close_pos _ _ _ C). destruct C as (C1 & C2 & C3 & C4). destruct H as [->|[A B]].
  - assert (E : y = 0). { destruct (Qc_dec y 0) as [[D|D]|D]; [destruct (Qclt_not_le _ _ D C2)|apply CP in D; destruct (Qc_lt_irrefl _ D)|exact D]. }
    rewrite E, lim_zero, rnd_zero. reflexivity.
  - assert (N3 := pw_nonneg one k one_ge). apply lim_inside.
    + apply Qcle_trans with (y * (M * power one k)); [|apply le_mul; [exact C2| |apply Qcle_refl|exact F]].
      * eapply Qcle_trans; [exact A|]. replace (y * (M * power one k)) with ((power one k * y) * M) by ring. apply Qcmult_le_compat_r; assumption.
      * eapply Qcle_trans; [|exact F]. apply Qcmult_nonneg; assumption.
    + eapply Qcle_trans; [exact C3|]. eapply Qcle_trans; [|exact F]. rewrite (Qcmult_comm M). apply le_mul; try assumption. apply Qcle_refl.
Qed.
Lemma inside p s k x y : mag p s x -> close k x y -> fits p s k -> lim y = rnd y.
Proof.
  intros M C F. assert (N1 := pw_nonneg P p P1). assert (N2 := pw_nonneg two s two_ge). assert (G2 := pw_ge two s two_ge).
  apply (inside_of (power P p * power two s) k x); [|apply Qcmult_nonneg; assumption|exact C|exact F].
  assert (X0 := mag_nonneg _ _ _ M). destruct M as [M|[A B]]; [left; exact M|right]. split; [|exact B]. eapply Qcle_trans; [exact A|].
  rewrite Qcmult_assoc. rewrite <- (Qcmult_1_r (x * power P p)) at 1. apply le_mul; [apply Qcmult_nonneg; assumption|exact N2|apply Qcle_refl|exact G2].
Qed.

(** ** Sums *)
Lemma leaves_pos t : (0 < length (leaves t))%nat.
Proof. induction t; cbn; [lia|]. rewrite app_length. lia. Qed.

Lemma mag_tree p s l : (forall i, mag p s (nth i l 0)) -> forall t, mag p (s + (length (leaves t) - 1)) (qsum (map (fun i => nth i l 0) (leaves t))).
Proof.
  intros H. induction t as [i|a IHa c IHc]; cbn [leaves map length].
  - cbn [qsum]. rewrite Qcplus_0_r. eapply mag_mono; [| |apply H]; lia.
  - rewrite map_app, qsum_app, app_length. assert (PA := leaves_pos a). assert (PC := leaves_pos c).
    apply (mag_add p (s + (Nat.max (length (leaves a)) (length (leaves c)) - 1))); [| |lia]; (eapply mag_mono; [| |eassumption]; lia).
Qed.

Lemma tree_with p s k l l' : (forall i, mag p s (nth i l 0)) -> (forall i, close k (nth i l 0) (nth i l' 0)) ->
  forall t, fits p (s + (length (leaves t) - 1)) (k + length (leaves t)) -> add_tree_with lim t l' = radd_tree t l'.
Proof.
  intros M H. induction t as [i|a IHa c IHc]; intros F; cbn [add_tree_with radd_tree leaves] in *; [reflexivity|].
  rewrite app_length in F. assert (PA := leaves_pos a). assert (PC := leaves_pos c).
  rewrite IHa by (eapply fits_down; [| | |exact F]; lia). rewrite IHc by (eapply fits_down; [| | |exact F]; lia).
  assert (MT := mag_tree p s l M (Both a c)). cbn [leaves] in MT. rewrite map_app, qsum_app, app_length in MT.
  eapply inside; [exact MT| |exact F]. apply close_add; (eapply close_mono; [|apply tree_close, H]); lia.
Qed.

Lemma mags_nth p s l : Forall (mag p s) l -> forall i, mag p s (nth i l 0).
Proof. induction 1 as [|x l H HL IH]; intros [|i]; cbn; auto using mag_zero. Qed.

Lemma sum_with_eq p s k tag l l' : Forall (mag p s) l -> Forall2 (close k) l l' -> fits p (s + (length l - 1)) (k + length l) -> sum_with lim tag l' = rsum tag l'.
Proof.
  intros M H F. assert (L := forall2_length _ _ _ _ _ H). unfold sum_with, rsum. destruct l' as [|y l']; [reflexivity|].
  assert (PL := plan_ok (length (y :: l')) tag ltac:(cbn; lia)). apply (tree_with p s k l); [apply mags_nth, M|apply forall2_nth, H|].
  rewrite (Permutation_length PL), seq_length, <- L. exact F.
Qed.

Lemma mag_sum p s l : Forall (mag p s) l -> mag p (s + (length l - 1)) (qsum l).
Proof.
  induction 1 as [|x l H HL IH]; cbn [qsum length]; [apply mag_zero|]. destruct l as [|y l].
  - cbn [qsum]. rewrite Qcplus_0_r. eapply mag_mono; [| |exact H]; lia.
  - apply (mag_add p (s + length l)); [eapply mag_mono; [| |exact H]; lia| |cbn; lia]. eapply mag_mono; [| |exact IH]; cbn; lia.
Qed.
End Mag.

(** ** Tables *)
Section Factors.
Context {RD : Rounding} {LM : Limits} {AD : Adding} {SO : SetOrder}.
Variable P : Qc.
Hypothesis P1 : (1 <= P)%Qc.
Variable dom : string -> list string.
Notation mag := (mag P).
Notation fits := (fits P).
Notation lmul := (mul_with lim).
Notation lmarg := (marg_with lim).
Notation lnorm := (normalize_with lim).

Definition amag (p s : nat) (a : ndarray) : Prop := Forall (mag p s) (data a).
Lemma amag_get p s a i : amag p s a -> mag p s (aget a i).
Proof. intros H. apply mags_nth, H. Qed.
Lemma tabulate_mag p s sh F : (forall i, mag p s (F i)) -> amag p s (tabulate sh F).
Proof. intros H. unfold amag. cbn. induction (indices sh); cbn; constructor; auto. Qed.
Lemma amag_transpose p s a w r : amag p s a -> transpose a w = Ok r -> amag p s r.
Proof. intros H. unfold transpose. destruct (is_perm _ _); [|discriminate]. intros E; inversion E; subst. apply tabulate_mag. intros i. apply amag_get, H. Qed.

Lemma zipb_with j k p s q t a a' c c' r : anear j a a' -> anear k c c' -> amag p s a -> amag q t c -> fits (p + q) (s + t) (j + k) -> zipb Qcmult a c = Ok r ->
  zipb (fun x y => lim (x * y)%Qc) a' c' = zipb (fun x y => rnd (x * y)%Qc) a' c' /\ amag (p + q) (s + t) r.
Proof.
  intros N M A C F. assert (S := proj1 N). assert (S2 := proj1 M). unfold zipb, rank. rewrite <- S, <- S2. destruct (bshape _ _) as [sh|]; cbn; [|discriminate].
  intros E; inversion E; subst. split.
  - f_equal. unfold tabulate. f_equal. apply map_ext. intros i. apply (inside P P1 (p + q) (s + t) (j + k) (bget a i * bget c i)); [apply (mag_mul P P1); apply amag_get; assumption| |exact F].
    apply close_mul; unfold bget, rank; [rewrite <- S|rewrite <- S2]; apply anear_get; assumption.
  - apply tabulate_mag. intros i. apply (mag_mul P P1); apply amag_get; assumption.
Qed.

Record near3 (p s k : nat) (f f' : factor) : Prop := { n3_near : near dom k f f'; n3_mag : amag p s (pot f) }.

Lemma near3_mono p s k p' s' k' f f' : p <= p' -> s <= s' -> k <= k' -> near3 p s k f f' -> near3 p' s' k' f f'.
Proof. intros A B C [N M]. split; [eapply near_mono; eassumption|]. eapply Forall_impl; [|exact M]. intros x. apply (mag_mono P P1); assumption. Qed.

Lemma mul3 p s j q t k f f' g g' h : near3 p s j f f' -> near3 q t k g g' -> fits (p + q) (s + t) (j + k) -> fmul f g = Ok h ->
  exists h', lmul f' g' = Ok h' /\ rmul f' g' = Ok h' /\ near3 (p + q) (s + t) (j + k + 1) h h'.
Proof.
  intros [N MF] [M MG] F E. destruct (near_mul dom _ _ _ _ _ _ _ N M E) as (h' & E' & NH). exists h'. rewrite E'.
  assert (X : lmul f' g' = rmul f' g' /\ amag (p + q) (s + t) (pot h)).
  { clear NH E'. destruct N as [Wf Of Vf Pf], M as [Wg Og Vg Pg]. unfold fmul, rmul, mul_with, fcombine in *. rewrite Of, Og, Vf, Vg.
    destruct (vorder f) as [|v vs] eqn:EO.
    - destruct (zipb Qcmult (pot f) (pot g)) as [r|] eqn:Z; [|discriminate]. cbn in E. inversion E; subst. destruct (zipb_with _ _ _ _ _ _ _ _ _ _ _ Pf Pg MF MG F Z) as [-> A]. auto.
    - destruct (vorder g) as [|w ws] eqn:EG.
      + destruct (zipb Qcmult (pot f) (pot g)) as [r|] eqn:Z; [|discriminate]. cbn in E. inversion E; subst. destruct (zipb_with _ _ _ _ _ _ _ _ _ _ _ Pf Pg MF MG F Z) as [-> A]. auto.
      + destruct (add_vals _ _ _) as [rv|]; cbn [rbind] in *; [|discriminate]. destruct (mapM _ _) as [sw|]; cbn [rbind] in *; [|discriminate].
        match type of E with context [transpose ?a sw] => destruct (transpose a sw) as [p2|] eqn:T; cbn [rbind] in E; [|discriminate];
          destruct (anear_transpose k a (expand (pot g') (length (sdiff ((v :: vs) ++ sdiff (w :: ws) (v :: vs)) (w :: ws)))) sw p2) as (p2' & T' & N2); [apply anear_expand, Pg|exact T|] end.
        rewrite T'. cbn [rbind].
        match type of E with context [zipb Qcmult ?a ?c] => destruct (zipb Qcmult a c) as [r|] eqn:Z; cbn [rbind] in E; [|discriminate] end.
        destruct (zipb_with j k p s q t _ (expand (pot f') (length (sdiff (w :: ws) (v :: vs)))) _ p2' r (anear_expand _ _ _ _ Pf) N2) as [-> A]; [exact MF|eapply amag_transpose; [|exact T]; exact MG|exact F|exact Z|].
        inversion E; subst. auto. }
  destruct X as [X1 X2]. rewrite X1, E'. split; [reflexivity|]. split; [reflexivity|]. split; assumption.
Qed.

Lemma marg3 p s k f f' v h : near3 p s k f f' -> In v (vorder f) -> fits p (s + pred (length (dom v))) (k + length (dom v)) -> marginalize1 f v = Ok h ->
  exists h', lmarg f' v = Ok h' /\ rmarg f' v = Ok h' /\ near3 p (s + pred (length (dom v))) (k + length (dom v)) h h'.
Proof.
  intros [N MF] Hv F E. destruct (near_marg dom _ _ _ _ _ N Hv E) as (h' & E' & NH). exists h'. rewrite E'.
  assert (X : lmarg f' v = rmarg f' v /\ amag p (s + pred (length (dom v))) (pot h)).
  { clear NH E'. destruct N as [W O V PT]. unfold marginalize1, rmarg, marg_with in *. rewrite O, V. rewrite py_index_ok in * by exact Hv. cbn [rbind] in *.
    destruct (dmem v (fvals f)); [|discriminate]. inversion E; subst. cbn [pot].
    assert (L : length (dom v) = nth (idx v (vorder f)) (shape (pot f)) 0).
    { rewrite (wf_shape _ _ W). unfold card.
      rewrite (nth_indep _ _ (length (dom ""))) by (rewrite map_length; apply idx_lt, Hv). rewrite (map_nth (fun w => length (dom w))). rewrite nth_idx by exact Hv. reflexivity. }
    set (row := fun a i => map (fun i0 => aget a (list_insert (idx v (vorder f)) i0 i)) (seq 0 (nth (idx v (vorder f)) (shape (pot f)) 0))).
    assert (RL : forall a i, length (row a i) = length (dom v)) by (intros a i; unfold row; rewrite map_length, seq_length; symmetry; exact L).
    assert (RM : forall i, Forall (mag p s) (row (pot f) i)) by (intros i; unfold row; apply Forall_forall; intros x Hx; apply in_map_iff in Hx as (y & <- & _); apply amag_get, MF).
    assert (RN : forall i, Forall2 (close k) (row (pot f) i) (row (pot f') i)).
    { intros i. unfold row. generalize (seq 0 (nth (idx v (vorder f)) (shape (pot f)) 0)). intros l. induction l; cbn; constructor; [apply anear_get, PT|assumption]. }
    split.
    - f_equal. f_equal. unfold sum_axis_with, rsum_axis. rewrite <- (proj1 PT). unfold tabulate. f_equal. apply map_ext. intros i.
      eapply (sum_with_eq P P1 p s k); [apply RM|apply RN|]. rewrite RL. replace (length (dom v) - 1) with (pred (length (dom v))) by lia. exact F.
    - unfold sum_axis. apply tabulate_mag. intros i. unfold bigsum. change (mag p (s + pred (length (dom v))) (qsum (row (pot f) i))).
      assert (Q := mag_sum P P1 p s _ (RM i)). rewrite RL in Q. replace (pred (length (dom v))) with (length (dom v) - 1) by lia. exact Q. }
  destruct X as [X1 X2]. rewrite X1, E'. split; [reflexivity|]. split; [reflexivity|]. split; assumption.
Qed.

Lemma norm3 p s k f f' : near3 p s k f f' -> fits (2 * p) (s + length (data (pot f))) (2 * k + length (data (pot f))) -> lnorm f' = rnormalize f'.
Proof.
  intros [N MF] F. destruct N as [W O V PT]. assert (S : close (k + length (data (pot f))) (asum (pot f)) (rsum [] (data (pot f')))) by (apply rsum_close, PT).
  assert (MS := mag_sum P P1 p s _ MF). change (qsum (data (pot f))) with (asum (pot f)) in MS.
  unfold normalize_with, rnormalize. rewrite (sum_with_eq P P1 p s k [] _ _ MF (proj2 PT)) by (eapply (fits_down P P1); [| | |exact F]; lia).
  destruct (qltb 0 (rsum [] (data (pot f')))) eqn:Q; [|reflexivity]. apply qltb_true in Q. f_equal. unfold amap. f_equal. apply map_ext_in. intros y Hy.
  assert (SP : (0 < asum (pot f))%Qc) by (eapply close_pos; [exact S|exact Q]).
  (* the exact entry behind y *)
  assert (HX : exists x, In x (data (pot f)) /\ close k x y).
  { destruct PT as [_ D]. clear - D Hy. induction D as [|x y' l l' H D IH]; [destruct Hy|]. destruct Hy as [->|Hy]; [exists x; split; [left; reflexivity|exact H]|].
    destruct (IH Hy) as (z & A & B). exists z. split; [right; exact A|exact B]. }
  destruct HX as (x & Hx & CX). assert (MX : mag p s x) by exact (proj1 (Forall_forall _ _) MF x Hx).
  assert (X0 := mag_nonneg P P1 _ _ _ MX). assert (LE : (x <= asum (pot f))%Qc).
  { unfold asum. clear - Hx MF P1. unfold amag in MF. revert Hx. induction MF as [|z l Z L IH]; intros H; [destruct H|]. cbn [qsum].
    assert (0 <= z)%Qc by (eapply (mag_nonneg P P1), Z). assert (0 <= qsum l)%Qc by (apply (mag_nonneg P P1 p (s + (length l - 1))), (mag_sum P P1), L). destruct H as [->|H].
    - rewrite <- (Qcplus_0_r x) at 1. apply Qcplus_le_compat; [apply Qcle_refl|assumption].
    - rewrite <- (Qcplus_0_l x). apply Qcplus_le_compat; [assumption|apply IH, H]. }
  assert (C : close (2 * k + length (data (pot f))) (x / asum (pot f)) (y / rsum [] (data (pot f')))).
  { replace (2 * k + length (data (pot f))) with (k + (k + length (data (pot f)))) by lia. apply close_mul; [exact CX|apply close_inv; [exact S|exact SP]]. }
  assert (NZ : asum (pot f) <> 0%Qc) by (apply Qc_pos_neq0, SP).
  assert (N1 := pw_nonneg P p P1). assert (N2 := pw_nonneg (1 + 1)%Qc (s + length (data (pot f))) two_ge).
  apply (inside_of (power P (2 * p) * power (1 + 1) (s + length (data (pot f)))) (2 * k + length (data (pot f))) (x / asum (pot f)));
    [|apply Qcmult_nonneg; [apply pw_nonneg, P1|exact N2]|exact C|exact F].
  destruct MX as [->|[A B]]; [left; unfold Qcdiv; apply Qcmult_0_l|]. right. destruct MS as [MS|[MA MB]]; [contradiction|].
  assert (IP := Qcinv_pos _ SP). assert (IE : (asum (pot f) * / asum (pot f) = 1)%Qc) by (apply Qcmult_inv_r, NZ). split.
  - (* S <= P^p 2^(s+n) and 1 <= x P^p *)
    replace (2 * p) with (p + p) by lia. rewrite pw_add.
    replace (x / asum (pot f) * (power P p * power P p * power (1 + 1) (s + length (data (pot f)))))%Qc
      with ((x * power P p) * ((power P p * power (1 + 1) (s + length (data (pot f)))) * / asum (pot f)))%Qc by (unfold Qcdiv; ring).
    apply le_1_mul; [exact A|]. apply Qcle_trans with (asum (pot f) * / asum (pot f))%Qc; [rewrite IE; apply Qcle_refl|]. apply Qcmult_le_compat_r; [|apply Qclt_le_weak, IP]. eapply Qcle_trans; [exact MB|].
    apply le_mul; [exact N1|exact N2|apply Qcle_refl|apply pw_le; [apply two_ge|lia]].
  - apply Qcle_trans with 1%Qc; [|apply le_1_mul; apply pw_ge; [exact P1|apply two_ge]]. apply Qcle_trans with (asum (pot f) * / asum (pot f))%Qc; [|rewrite IE; apply Qcle_refl]. unfold Qcdiv. apply Qcmult_le_compat_r; [exact LE|apply Qclt_le_weak, IP].
Qed.

(** ** Lists of buckets *)
Inductive bnear3 : nat -> nat -> nat -> list factor -> list factor -> Prop :=
| b3_nil p s t : bnear3 p s t [] []
| b3_cons p s j q r t f f' bs bs' : near3 p s j f f' -> bnear3 q r t bs bs' -> bnear3 (p + q) (s + r) (j + t) (f :: bs) (f' :: bs').

Lemma bnear3_mono p s t p' s' t' bs bs' : p <= p' -> s <= s' -> t <= t' -> bnear3 p s t bs bs' -> bnear3 p' s' t' bs bs'.
Proof.
  intros LP LS LT B. revert p' s' t' LP LS LT. induction B as [p s t|p s j q r t f f' bs bs' N B IH]; intros p' s' t' LP LS LT; [constructor|].
  replace p' with (p + (p' - p)) by lia. replace s' with (s + (s' - s)) by lia. replace t' with (j + (t' - j)) by lia. constructor; [exact N|]. apply IH; lia.
Qed.

Lemma place3 p s k q r t f f' o bs bs' : near3 p s k f f' -> bnear3 q r t bs bs' -> fits (p + q) (s + r) (k + t) ->
  (place_first f o bs = None -> place_first_by lmul f' o bs' = None /\ place_first_by rmul f' o bs' = None) /\
  (forall l, place_first f o bs = Some (Ok l) -> exists l', place_first_by lmul f' o bs' = Some (Ok l') /\ place_first_by rmul f' o bs' = Some (Ok l') /\ bnear3 (p + q) (s + r) (t + k + 1) l l').
Proof.
  intros N B. revert o. induction B as [q r t|q r j q2 r2 t g g' bs bs' M B IH]; intros [|v o] F; cbn [place_first place_first_by]; try (split; [split; reflexivity|intros l E; discriminate]).
  assert (FC : fcontains v f' = fcontains v f) by (unfold fcontains; rewrite (nr_vals _ _ _ _ (n3_near _ _ _ _ _ N)); reflexivity). rewrite FC.
  destruct (fcontains v f).
  - split; [discriminate|]. intros l E. destruct (fmul g f) as [h|] eqn:EM; cbn in E; inversion E; subst.
    destruct (mul3 _ _ _ _ _ _ _ _ _ _ _ M N ltac:(eapply (fits_down P P1); [| | |exact F]; lia) EM) as (h' & E1 & E2 & NH). rewrite E1, E2. cbn. eexists; split; [reflexivity|]. split; [reflexivity|].
    eapply (bnear3_mono ((q + p) + q2) ((r + s) + r2) ((j + k + 1) + t)); try lia. constructor; assumption.
  - destruct (IH o) as [I1 I2]; [eapply (fits_down P P1); [| | |exact F]; lia|]. destruct (place_first f o bs) as [[l|e]|].
    + split; [discriminate|]. intros l2 E. cbn in E. inversion E; subst. destruct (I2 l eq_refl) as (l' & E1 & E2 & B'). rewrite E1, E2. cbn. eexists; split; [reflexivity|]. split; [reflexivity|].
      eapply (bnear3_mono (q + (p + q2)) (r + (s + r2)) (j + (t + k + 1))); try lia. constructor; assumption.
    + split; [discriminate|]. intros l2 E. discriminate.
    + destruct (I1 eq_refl) as [-> ->]. split; [split; reflexivity|discriminate].
Qed.

Lemma last3 p s k q r t f f' bs bs' l : near3 p s k f f' -> bnear3 q r t bs bs' -> fits (p + q) (s + r) (k + t) -> mul_last f bs = Ok l ->
  exists l', mul_last_by lmul f' bs' = Ok l' /\ mul_last_by rmul f' bs' = Ok l' /\ bnear3 (p + q) (s + r) (t + k + 1) l l'.
Proof.
  intros N B. revert l. induction B as [q r t|q r j q2 r2 t g g' bs bs' M B IH]; intros l F E; [discriminate|]. cbn [mul_last mul_last_by] in *. destruct B as [q2 r2 t|q2 r2 i q3 r3 t g2 g2' bs bs' M2 B].
  - destruct (fmul g f) as [h|] eqn:EM; cbn in E; inversion E; subst.
    destruct (mul3 _ _ _ _ _ _ _ _ _ _ _ M N ltac:(eapply (fits_down P P1); [| | |exact F]; lia) EM) as (h' & E1 & E2 & NH). rewrite E1, E2. cbn. eexists; split; [reflexivity|]. split; [reflexivity|].
    eapply (bnear3_mono ((q + p) + q2) ((r + s) + r2) ((j + k + 1) + t)); try lia. constructor; [exact NH|constructor].
  - destruct (mul_last f (g2 :: bs)) as [l2|] eqn:E2; cbn [rbind] in E; inversion E; subst. destruct (IH l2) as (l' & E1' & E2' & B'); [eapply (fits_down P P1); [| | |exact F]; lia|reflexivity|].
    rewrite E1', E2'. cbn. eexists; split; [reflexivity|]. split; [reflexivity|]. eapply (bnear3_mono (q + (p + (q2 + q3))) (r + (s + (r2 + r3))) (j + (i + t + k + 1))); try lia. constructor; assumption.
Qed.

Lemma at3 p s k q r t f f' bs bs' i l : near3 p s k f f' -> bnear3 q r t bs bs' -> fits (p + q) (s + r) (k + t) -> mul_at i f bs = Ok l ->
  exists l', mul_at_by lmul i f' bs' = Ok l' /\ mul_at_by rmul i f' bs' = Ok l' /\ bnear3 (p + q) (s + r) (t + k + 1) l l'.
Proof.
  intros N B. revert i l. induction B as [q r t|q r j q2 r2 t g g' bs bs' M B IH]; intros [|i] l F E; cbn [mul_at mul_at_by] in *; try discriminate.
  - destruct (fmul g f) as [h|] eqn:EM; cbn in E; inversion E; subst.
    destruct (mul3 _ _ _ _ _ _ _ _ _ _ _ M N ltac:(eapply (fits_down P P1); [| | |exact F]; lia) EM) as (h' & E1 & E2 & NH). rewrite E1, E2. cbn. eexists; split; [reflexivity|]. split; [reflexivity|].
    eapply (bnear3_mono ((q + p) + q2) ((r + s) + r2) ((j + k + 1) + t)); try lia. constructor; assumption.
  - destruct (mul_at i f bs) as [l2|] eqn:E2; cbn [rbind] in E; inversion E; subst. destruct (IH i l2) as (l' & E1' & E2' & B'); [eapply (fits_down P P1); [| | |exact F]; lia|exact E2|].
    rewrite E1', E2'. cbn. eexists; split; [reflexivity|]. split; [reflexivity|]. eapply (bnear3_mono (q + (p + q2)) (r + (s + r2)) (j + (t + k + 1))); try lia. constructor; assumption.
Qed.

Lemma factors3 o fs bs bs' q r t l : Forall (fun f => near3 1 0 0 f f) fs -> bnear3 q r t bs bs' -> fits (q + length fs) r (t + length fs) -> foldM (place_factor o) fs bs = Ok l ->
  exists l', foldM (place_factor_by lmul o) fs bs' = Ok l' /\ foldM (place_factor_by rmul o) fs bs' = Ok l' /\ bnear3 (q + length fs) r (t + length fs) l l'.
Proof.
  intros NF. revert q t bs bs'. induction NF as [|f fs N NF IH]; intros q t bs bs' B F E; cbn [foldM length] in *.
  - inversion E; subst. eexists; split; [reflexivity|]. split; [reflexivity|]. eapply bnear3_mono; [| | |exact B]; lia.
  - unfold place_factor at 1 in E. unfold place_factor_by at 1. destruct (place3 1 0 0 q r t f f o bs bs' N B) as [P1' P2]; [eapply (fits_down P P1); [| | |exact F]; lia|].
    destruct (place_first f o bs) as [[b1|]|]; cbn [rbind] in E; [|discriminate|].
    + destruct (P2 b1 eq_refl) as (b1' & E1 & E2 & B1). unfold place_factor_by at 2. rewrite E1, E2. cbn [rbind].
      destruct (IH _ _ _ _ B1) with (1 := ltac:(eapply (fits_down P P1); [| | |exact F]; lia) : fits (1 + q + length fs) (0 + r) (t + 0 + 1 + length fs)) as (l' & F1 & F2 & BL); [exact E|].
      exists l'. split; [exact F1|]. split; [exact F2|]. eapply bnear3_mono; [| | |exact BL]; lia.
    + unfold place_factor_by at 2. destruct (P1' eq_refl) as [-> ->]. cbn [rbind]. destruct (IH _ _ _ _ B) as (l' & F1 & F2 & BL); [eapply (fits_down P P1); [| | |exact F]; lia|exact E|].
      exists l'. split; [exact F1|]. split; [exact F2|]. eapply bnear3_mono; [| | |exact BL]; lia.
Qed.

Lemma evidence3 (b : bn) o (ev : evidence) bs bs' q r t l :
  (forall v e n ef, In (v, e) ev -> get_node b v = Ok n -> as_evidence v (dn_values n) e None = Ok ef -> near3 1 0 0 ef ef) ->
  bnear3 q r t bs bs' -> fits (q + length ev) r (t + length ev) -> foldM (add_evidence b o) ev bs = Ok l ->
  exists l', foldM (add_evidence_by lmul b o) ev bs' = Ok l' /\ foldM (add_evidence_by rmul b o) ev bs' = Ok l' /\ bnear3 (q + length ev) r (t + length ev) l l'.
Proof.
  revert q t bs bs'. induction ev as [|[v e] ev IH]; intros q t bs bs' NE B F E; cbn [foldM length] in *.
  - inversion E; subst. eexists; split; [reflexivity|]. split; [reflexivity|]. eapply bnear3_mono; [| | |exact B]; lia.
  - unfold add_evidence at 1 in E. unfold add_evidence_by at 1 3. cbn [fst snd] in *. destruct (py_index v o) as [i|]; cbn [rbind] in *; [|discriminate].
    destruct (get_node b v) as [n|] eqn:G; cbn [rbind] in *; [|discriminate]. destruct (as_evidence v (dn_values n) e None) as [ef|] eqn:A; cbn [rbind] in *; [|discriminate].
    assert (N := NE v e n ef (or_introl eq_refl) G A). destruct (mul_at i ef bs) as [b1|] eqn:M; cbn [rbind] in E; [|discriminate].
    destruct (at3 _ _ _ _ _ _ _ _ _ _ _ _ N B ltac:(eapply (fits_down P P1); [| | |exact F]; lia) M) as (b1' & E1 & E2 & B1). rewrite E1, E2. cbn [rbind].
    destruct (IH _ _ _ _ (fun v e n ef H => NE v e n ef (or_intror H)) B1) as (l' & F1 & F2 & BL); [eapply (fits_down P P1); [| | |exact F]; lia|exact E|].
    exists l'. split; [exact F1|]. split; [exact F2|]. eapply bnear3_mono; [| | |exact BL]; lia.
Qed.

Definition preds (vs : list string) : nat := sumn (map (fun v => pred (length (dom v))) vs).
Definition lens (vs : list string) : nat := sumn (map (fun v => length (dom v)) vs).

Lemma marg_In f v h : marginalize1 f v = Ok h -> In v (vorder f).
Proof.
  intros M. destruct (In_dec_s v (vorder f)) as [I|I]; [exact I|]. exfalso. unfold marginalize1, py_index in M. destruct (index_of v (vorder f)) as [i2|] eqn:IO; [|discriminate].
  apply index_of_Some in IO as [IO _]. apply nth_error_In in IO. contradiction.
Qed.

Lemma process3 k o bs bs' q r t o2 l : bnear3 q r t bs bs' -> fits q (r + preds (firstn k o)) (t + length (firstn k o) + lens (firstn k o)) -> process k o bs = Ok (o2, l) ->
  exists l', process_by lmul lmarg k o bs' = Ok (o2, l') /\ process_by rmul rmarg k o bs' = Ok (o2, l') /\
    bnear3 q (r + preds (firstn k o)) (t + length (firstn k o) + lens (firstn k o)) l l'.
Proof.
  revert o bs bs' q r t. induction k as [|k IH]; intros o bs bs' q r t B F E.
  - cbn in *. inversion E; subst. eexists; split; [reflexivity|]. split; [reflexivity|]. eapply bnear3_mono; [| | |exact B]; lia.
  - destruct o as [|v o]; [cbn in *; inversion E; subst; eexists; split; [reflexivity|]; split; [reflexivity|]; eapply bnear3_mono; [| | |exact B]; lia|].
    destruct B as [q r t|p s j q r t f f' bs bs' N B]; [cbn in *; inversion E; subst; eexists; split; [reflexivity|]; split; [reflexivity|]; constructor|].
    cbn [process process_by firstn length] in *. assert (PV : preds (v :: firstn k o) = pred (length (dom v)) + preds (firstn k o)) by reflexivity.
    assert (LV : lens (v :: firstn k o) = length (dom v) + lens (firstn k o)) by reflexivity. rewrite PV, LV in *.
    destruct (marginalize1 f v) as [tmp|] eqn:M; cbn [rbind] in E; [|discriminate].
    destruct (marg3 _ _ _ _ _ _ _ N (marg_In _ _ _ M) ltac:(eapply (fits_down P P1); [| | |exact F]; lia) M) as (tmp' & M1 & M2 & NT). rewrite M1, M2. cbn [rbind].
    assert (FT : fits (p + q) (s + pred (length (dom v)) + r) (j + length (dom v) + t)) by (eapply (fits_down P P1); [| | |exact F]; lia).
    destruct (place3 _ _ _ _ _ _ _ _ o _ _ NT B FT) as [P1' P2].
    assert (X : forall b2, match place_first tmp o bs with Some r => r | None => mul_last tmp bs end = Ok b2 ->
      exists b2', match place_first_by lmul tmp' o bs' with Some r => r | None => mul_last_by lmul tmp' bs' end = Ok b2' /\
        match place_first_by rmul tmp' o bs' with Some r => r | None => mul_last_by rmul tmp' bs' end = Ok b2' /\
        bnear3 (p + q) (s + pred (length (dom v)) + r) (t + (j + length (dom v)) + 1) b2 b2').
    { intros b2. destruct (place_first tmp o bs) as [[b3|]|].
      - intros Q; inversion Q; subst. destruct (P2 b2 eq_refl) as (b2' & E1 & E2 & B2). rewrite E1, E2. eauto.
      - discriminate.
      - destruct (P1' eq_refl) as [-> ->]. intros Q. exact (last3 _ _ _ _ _ _ _ _ _ _ _ NT B FT Q). }
    destruct (match place_first tmp o bs with Some r => r | None => mul_last tmp bs end) as [b2|]; cbn [rbind] in E; [|discriminate].
    destruct (X b2 eq_refl) as (b2' & E1 & E2 & B2). rewrite E1, E2. cbn [rbind]. edestruct (IH o b2 b2') as (l' & F1 & F2 & BL); [exact B2|eapply (fits_down P P1); [| | |exact F]; lia|exact E|].
    exists l'. split; [exact F1|]. split; [exact F2|]. eapply bnear3_mono; [| | |exact BL]; lia.
Qed.

Lemma collect3 acc acc' p s k bs bs' q r t h : near3 p s k acc acc' -> bnear3 q r t bs bs' -> fits (p + q) (s + r) (k + t + length bs) -> collect acc bs = Ok h ->
  exists h', collect_by lmul acc' bs' = Ok h' /\ collect_by rmul acc' bs' = Ok h' /\ near3 (p + q) (s + r) (k + t + length bs) h h'.
Proof.
  intros N B. revert acc acc' p s k N. induction B as [q r t|q r j q2 r2 t f f' bs bs' M B IH]; intros acc acc' p s k N F E; cbn [collect collect_by length] in *.
  - inversion E; subst. eexists; split; [reflexivity|]. split; [reflexivity|]. eapply near3_mono; [| | |exact N]; lia.
  - destruct (fmul f acc) as [g|] eqn:Q; cbn [rbind] in E; [|discriminate].
    destruct (mul3 _ _ _ _ _ _ _ _ _ _ _ M N ltac:(eapply (fits_down P P1); [| | |exact F]; lia) Q) as (g' & Q1 & Q2 & NG). rewrite Q1, Q2. cbn [rbind].
    edestruct IH as (h' & E1 & E2 & NH); [exact NG|eapply (fits_down P P1); [| | |exact F]; lia|exact E|]. exists h'. split; [exact E1|]. split; [exact E2|]. eapply near3_mono; [| | |exact NH]; lia.
Qed.

Lemma near3_refl p f : wf_factor dom f -> amag p 0 (pot f) -> near3 p 0 0 f f.
Proof. intros W M. split; [|exact M]. apply near_refl; [exact W|]. eapply Forall_impl; [|exact M]. intros x. apply (mag_nonneg P P1). Qed.

Lemma trivial3 : near3 0 0 0 (trivial 1%Qc) (trivial 1%Qc).
Proof. apply near3_refl; [apply wf_trivial|]. constructor; [|constructor]. right. cbn. split; discriminate. Qed.

Lemma binit3 n : bnear3 0 0 0 (repeat (trivial 1%Qc) n) (repeat (trivial 1%Qc) n).
Proof. induction n as [|n IH]; cbn; [constructor|]. change 0 with (0 + 0). constructor; [apply trivial3|exact IH]. Qed.
End Factors.

(** ** The two algorithms *)
Section Main.
Context {RD : Rounding} {LM : Limits} {AD : Adding} {SO : SetOrder}.
Variables (P : Qc) (b : bn).
Hypothesis WB : wf_bn b.
Hypothesis NN : nonneg_bn b.
Variable ev : evidence.
Hypothesis EV : ev_ok b ev.
Hypothesis TM : tame P b ev.
Notation dom := (values_of b).
Notation lmul := (mul_with lim).
Notation lmarg := (marg_with lim).
Notation near3 := (near3 P dom).
Notation fits := (fits P).

Lemma P1 : (1 <= P)%Qc. Proof. apply TM. Qed.

Lemma amid_mag x : amid P x -> mag P 1 0 x.
Proof. unfold amid, mag. cbn [power]. rewrite Qcmult_1_r, Qcmult_1_r. auto. Qed.

Lemma node3 n : In n (bnodes b) -> near3 1 0 0 (from_node n) (from_node n).
Proof. intros H. apply near3_refl; [exact P1|apply (wf_from_node b WB n H)|]. eapply Forall_impl; [apply amid_mag|]. apply (proj1 (proj2 TM)), H. Qed.

Lemma ev3 v e n ef : In (v, e) ev -> get_node b v = Ok n -> as_evidence v (dn_values n) e None = Ok ef -> near3 1 0 0 ef ef.
Proof.
  intros I G A. assert (N := near_ev b WB ev EV v e n ef I G A). apply near3_refl; [exact P1|apply N|]. unfold as_evidence in A. destruct e as [x|q].
  - destruct (index_of x (dn_values n)) as [i|]; [|discriminate]. inversion A; subst. unfold amag. cbn [pot data]. apply Forall_forall. intros y Hy.
    apply In_nth with (d := 0%Qc) in Hy as (m & Hm & <-). rewrite list_set_length, repeat_length in Hm. destruct (Nat.eq_dec m i) as [->|NE].
    + rewrite list_set_nth_eq by (rewrite repeat_length; exact Hm). apply amid_mag. right. rewrite Qcmult_1_l. split; apply P1.
    + rewrite list_set_nth_neq by congruence. rewrite nth_repeat. apply mag_zero.
  - destruct (Nat.eqb _ _); [|discriminate]. inversion A; subst. unfold amag. cbn [pot data]. eapply Forall_impl; [apply amid_mag|]. eapply (proj2 (proj2 TM)), I.
Qed.

Lemma fold3 vs f f' p k h : near3 p 0 k f f' ->
  fits (p + length vs + length (filter (fun v => dmem v ev) vs)) 0 (k + length vs + length (filter (fun v => dmem v ev) vs)) -> foldM (naive_step b ev) vs f = Ok h ->
  exists h', foldM (naive_step_by lmul b ev) vs f' = Ok h' /\ foldM (naive_step_by rmul b ev) vs f' = Ok h' /\
    near3 (p + length vs + length (filter (fun v => dmem v ev) vs)) 0 (k + length vs + length (filter (fun v => dmem v ev) vs)) h h'.
Proof.
  revert f f' p k. induction vs as [|v vs IH]; intros f f' p k N F E; cbn [foldM length filter] in *.
  - inversion E; subst. eexists; split; [reflexivity|]. split; [reflexivity|]. eapply near3_mono; [exact P1| | | |exact N]; lia.
  - unfold naive_step at 1 in E. unfold naive_step_by at 1 3. destruct (get_node b v) as [n|] eqn:G; cbn [rbind] in *; [|discriminate].
    destruct (fmul f (from_node n)) as [f1|] eqn:M1; cbn [rbind] in E; [|discriminate]. assert (Hn := get_node_In b _ _ G).
    unfold dmem in *. destruct (dget v ev) as [e|] eqn:D; cbn [length] in *.
    + destruct (mul3 P P1 dom _ _ _ _ _ _ _ _ _ _ _ N (node3 n (proj1 Hn)) ltac:(eapply (fits_down P P1); [| | |exact F]; lia) M1) as (f1' & M1' & M1'' & N1). rewrite M1', M1''. cbn [rbind].
      destruct (as_evidence v (dn_values n) e None) as [ef|] eqn:A; cbn [rbind] in *; [|discriminate].
      destruct (fmul f1 ef) as [f2|] eqn:M2; cbn [rbind] in E; [|discriminate].
      assert (NE := ev3 v e n ef (dget_In _ _ _ D) G A).
      destruct (mul3 P P1 dom _ _ _ _ _ _ _ _ _ _ _ N1 NE ltac:(eapply (fits_down P P1); [| | |exact F]; lia) M2) as (f2' & M2' & M2'' & N2). rewrite M2', M2''. cbn [rbind].
      destruct (IH f2 f2' (p + 1 + 1) (k + 0 + 1 + 0 + 1)) as (h' & E1 & E2 & NH); [eapply near3_mono; [exact P1| | | |exact N2]; lia|eapply (fits_down P P1); [| | |exact F]; lia|exact E|].
      exists h'. split; [exact E1|]. split; [exact E2|]. eapply near3_mono; [exact P1| | | |exact NH]; lia.
    + destruct (mul3 P P1 dom _ _ _ _ _ _ _ _ _ _ _ N (node3 n (proj1 Hn)) ltac:(eapply (fits_down P P1); [| | |exact F]; lia) M1) as (f1' & M1' & M1'' & N1). rewrite M1', M1''. cbn [rbind] in *.
      destruct (IH f1 f1' (p + 1) (k + 0 + 1)) as (h' & E1 & E2 & NH); [eapply near3_mono; [exact P1| | | |exact N1]; lia|eapply (fits_down P P1); [| | |exact F]; lia|exact E|].
      exists h'. split; [exact E1|]. split; [exact E2|]. eapply near3_mono; [exact P1| | | |exact NH]; lia.
Qed.

Lemma margs3 vs f f' p s k h : near3 p s k f f' -> fits p (s + preds dom vs) (k + lens dom vs) -> foldM marginalize1 vs f = Ok h ->
  exists h', foldM lmarg vs f' = Ok h' /\ foldM rmarg vs f' = Ok h' /\ near3 p (s + preds dom vs) (k + lens dom vs) h h'.
Proof.
  revert f f' s k. induction vs as [|v vs IH]; intros f f' s k N F E; cbn [foldM] in *.
  - inversion E; subst. eexists; split; [reflexivity|]. split; [reflexivity|]. eapply near3_mono; [exact P1| | | |exact N]; lia.
  - assert (PV : preds dom (v :: vs) = pred (length (dom v)) + preds dom vs) by reflexivity. assert (LV : lens dom (v :: vs) = length (dom v) + lens dom vs) by reflexivity. rewrite PV, LV in *.
    destruct (marginalize1 f v) as [g|] eqn:M; cbn [rbind] in E; [|discriminate].
    destruct (marg3 P P1 dom _ _ _ _ _ _ _ N (marg_In _ _ _ M) ltac:(eapply (fits_down P P1); [| | |exact F]; lia) M) as (g' & M1 & M2 & NG). rewrite M1, M2. cbn [rbind].
    destruct (IH _ _ _ _ NG) as (h' & E1 & E2 & NH); [eapply (fits_down P P1); [| | |exact F]; lia|exact E|]. exists h'. split; [exact E1|]. split; [exact E2|]. eapply near3_mono; [exact P1| | | |exact NH]; lia.
Qed.

Lemma need_fits t s k : (need P t s k <= top)%Qc -> fits (2 * t) s k.
Proof. intros H. exact H. Qed.

Lemma filter_ev_length : length (filter (fun v => dmem v ev) (bnames b)) <= length ev.
Proof.
  rewrite <- (map_length fst ev). apply NoDup_incl_length; [apply NoDup_filter, WB|]. intros v Hv. apply filter_In in Hv as [_ Hv]. apply dmem_In in Hv. exact Hv.
Qed.
Lemma preds_sizes vs : preds dom vs = sumn (map pred (sizes b vs)).
Proof. unfold preds, sizes. rewrite map_map. reflexivity. Qed.

Theorem naive_limited Q : NoDup Q -> incl Q (bnames b) -> (naive_need P b Q ev <= top)%Qc -> limited_naive b Q ev = rounded_naive b Q ev.
Proof.
  intros ND I H. apply need_fits in H. unfold spread, naive_errors in H. destruct (naive_reports b WB Q ev NN EV I) as (r & E & R). unfold naive_marginals in E. unfold limited_naive, rounded_naive, naive_by.
  destruct (foldM (naive_step b ev) (bnames b) (trivial 1%Qc)) as [f|] eqn:F; cbn [rbind] in E; [|discriminate].
  destruct (foldM marginalize1 _ f) as [g|] eqn:G; cbn [rbind] in E; [|discriminate]. assert (SZ : length (data (pot g)) = prodn (sizes b Q)). { rewrite <- (reports_size b r Q _ ND R). inversion E; subst. rewrite normalize_size. reflexivity. }
  assert (LE := filter_ev_length). assert (LB : length (bnames b) = length (bnodes b)) by (unfold bnames; apply map_length).
  change (filter (fun v => negb (mem v Q)) (bnames b)) with (summed b Q) in *. rewrite <- preds_sizes in H. change (sumn (sizes b (summed b Q))) with (lens dom (summed b Q)) in H.
  destruct (fold3 (bnames b) _ _ 0 0 f (trivial3 P P1 dom)) as (f' & F1 & F2 & NF); [eapply (fits_down P P1); [| | |exact H]; lia|exact F|]. rewrite F1, F2. cbn [rbind].
  edestruct (margs3 (summed b Q) f f') as (g' & G1 & G2 & NG); [exact NF|eapply (fits_down P P1); [| | |exact H]; lia|exact G|]. rewrite G1, G2. cbn [rbind]. f_equal.
  eapply (norm3 P P1); [exact NG|]. eapply (fits_down P P1); [| | |exact H]; lia.
Qed.

Lemma bucket_limited_core Q o o' l : NoDup Q -> incl Q (bnames b) -> move_to_end Q o = (o', None) -> Permutation o (bnames b) -> o' = l ++ Q ->
  (exists r, bucket_core b Q ev o' = Ok r /\ reports b r Q (posterior b ev)) ->
  fits (2 * (length (bnodes b) + length ev)) (preds dom l + prodn (sizes b Q)) (2 * (2 * length (bnodes b) + length ev + lens dom l) + prodn (sizes b Q) + 1) ->
  bucket_core_by lmul lmarg (normalize_with lim) b Q ev o' = bucket_core_by rmul rmarg rnormalize b Q ev o'.
Proof.
  intros ND I MV PM EO (r & E & R) H. assert (LO := move_length _ _ _ MV). assert (LN := Permutation_length PM). unfold bnames in LN. rewrite map_length in LN.
  unfold bucket_core in E. unfold bucket_core_by. destruct (mapM (get_node b) o') as [ns|] eqn:MN; cbn [rbind] in *; [|discriminate].
  assert (FN : Forall (fun f => near3 1 0 0 f f) (map from_node ns) /\ length ns = length o').
  { clear - MN WB TM. revert ns MN. generalize o' as k. intros k. induction k as [|v k IH]; intros ns E; cbn [mapM] in E; [inversion E; split; [constructor|reflexivity]|].
    destruct (get_node b v) as [n|] eqn:G; cbn in E; [|discriminate]. destruct (mapM (get_node b) k) as [m|]; cbn in E; [|discriminate]. inversion E; subst.
    destruct (IH m eq_refl). split; [|cbn; congruence]. constructor; [|assumption]. apply node3, (get_node_In b _ _ G). }
  destruct FN as [FN LF]. destruct (foldM (place_factor o') _ _) as [b1|] eqn:F1; cbn [rbind] in E; [|discriminate].
  assert (LQ : length Q <= length o') by (rewrite EO, app_length; lia). assert (LL : length o' = length l + length Q) by (rewrite EO; apply app_length).
  assert (FQ : firstn (length o' - length Q) o' = l).
  { rewrite EO, app_length. replace (length l + length Q - length Q) with (length l + 0) by lia. rewrite firstn_app_2. cbn. apply app_nil_r. }
  assert (LM1 : length (map from_node ns) = length (bnodes b)) by (rewrite map_length; lia).
  edestruct (factors3 P P1 dom o' (map from_node ns)) as (b1' & F1' & F1'' & B1); [exact FN|apply (binit3 P P1 dom)|rewrite LM1; eapply (fits_down P P1); [| | |exact H]; lia|exact F1|].
  rewrite F1', F1''. cbn [rbind]. rewrite LM1 in B1.
  destruct (foldM (add_evidence b o') ev b1) as [b2|] eqn:F2; cbn [rbind] in E; [|discriminate].
  edestruct (evidence3 P P1 dom b o' ev) as (b2' & F2' & F2'' & B2); [exact ev3|exact B1|eapply (fits_down P P1); [| | |exact H]; lia|exact F2|]. rewrite F2', F2''. cbn [rbind].
  destruct (process _ o' b2) as [[o2 b3]|] eqn:PR; cbn [rbind] in E; [|discriminate].
  edestruct (process3 P P1 dom (length o' - length Q) o') as (b3' & PR' & PR'' & B3); [exact B2|rewrite FQ; eapply (fits_down P P1); [| | |exact H]; lia|exact PR|]. rewrite PR', PR''. cbn [rbind].
  rewrite (proj2 (Nat.leb_le _ _) LQ) in E. rewrite FQ in B3.
  assert (L3 : length b3 <= S (length Q)) by (rewrite (process_length _ _ _ _ _ PR); [lia|lia|exact (buckets_length b ev _ _ _ _ F1 F2)]).
  inversion B3 as [p0 s0 t0 EP ES ET E3 E3'|p s j q u t f f' bs bs' N3 BS EP ES ET E3 E3']; subst b3 b3'; [discriminate|]. cbn [length] in L3.
  destruct (collect f bs) as [g|] eqn:CO; cbn [rbind] in E; [|discriminate].
  edestruct (collect3 P P1 dom f f') as (g' & CO' & CO'' & NG); [exact N3|exact BS|eapply (fits_down P P1); [| | |exact H]; lia|exact CO|]. rewrite CO', CO''. cbn [rbind]. f_equal.
  assert (SZ : length (data (pot g)) = prodn (sizes b Q)). { rewrite <- (reports_size b r Q _ ND R). inversion E; subst. rewrite normalize_size. reflexivity. }
  eapply (norm3 P P1); [exact NG|]. eapply (fits_down P P1); [| | |exact H]; lia.
Qed.

Theorem bucket_limited Q o : incl (dkeys ev) (bnames b) -> NoDup Q -> incl Q (bnames b) -> (o = None \/ o = Some [] -> wf_graph b) ->
  (forall l, o = Some l -> l <> [] -> Permutation (bnames b) l) -> (bucket_need P b Q ev <= top)%Qc -> limited_bucket b Q ev o = rounded_bucket b Q ev o.
Proof.
  intros K ND I G PO H. destruct (bucket_any_order b WB Q ev o NN EV K ND I G PO) as (r & E & R). unfold limited_bucket, rounded_bucket, bucket_by. unfold bucket_query in E.
  assert (X : exists l, order_or_default b o = Ok l /\ Permutation (bnames b) l).
  { unfold order_or_default. destruct o as [[|x l]|].
    - destruct (min_degree_greedy b) as (l & El & Pr & _); [apply G; tauto|eauto].
    - exists (x :: l). split; [reflexivity|]. apply PO; [reflexivity|discriminate].
    - destruct (min_degree_greedy b) as (l & El & Pr & _); [apply G; tauto|eauto]. }
  destruct X as (o1 & EO & PM). rewrite EO in *. cbn [rbind] in *. unfold bucket_marginals in E.
  assert (NO : NoDup o1) by (apply (Permutation_NoDup PM), WB).
  assert (M := move_to_end_spec Q o1 ND NO (fun v H => Permutation_in _ PM (I v H))). rewrite M in *. cbn [snd] in E.
  apply (bucket_limited_core Q o1 _ (filter (fun v => negb (mem v Q)) o1) ND I M (Permutation_sym PM) eq_refl); [eauto|].
  apply need_fits in H. unfold spread, bucket_errors in H.
  assert (PS : Permutation (filter (fun v => negb (mem v Q)) o1) (summed b Q)).
  { apply NoDup_Permutation; [apply NoDup_filter, NO|apply NoDup_filter, WB|]. intros v. unfold summed. rewrite !filter_In.
    split; intros [H1 H2]; (split; [|exact H2]); [apply (Permutation_in _ (Permutation_sym PM)), H1|apply (Permutation_in _ PM), H1]. }
  rewrite <- preds_sizes in H. unfold preds, lens. rewrite (sumn_perm _ _ (Permutation_map (fun v => pred (length (dom v))) PS)), (sumn_perm _ _ (Permutation_map (fun v => length (dom v)) PS)). exact H.
Qed.
End Main.
