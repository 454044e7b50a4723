(** Lemmas about the array operations of NDArray.v. *)
From Verif Require Import Base BaseFacts NDArray.

Definition inb (sh idx : list nat) : Prop := Forall2 lt idx sh.
Definition wfa (a : ndarray) : Prop := length (data a) = prodn (shape a).

Lemma inb_length sh ix : inb sh ix -> length ix = length sh.
Proof. unfold inb. induction 1; cbn; congruence. Qed.

Lemma inbb_spec sh ix : inbb sh ix = true <-> inb sh ix.
Proof.
  unfold inb. revert ix; induction sh as [|d sh IH]; intros [|i ix]; cbn.
  - split; [constructor|reflexivity].
  - split; [discriminate|intros H; inversion H].
  - split; [discriminate|intros H; inversion H].
  - rewrite andb_true_iff, Nat.ltb_lt, IH. split.
    + intros []; constructor; assumption.
    + intros H; inversion H; subst; split; assumption.
Qed.

Lemma In_indices sh ix : In ix (indices sh) <-> inb sh ix.
Proof.
  unfold inb. revert ix; induction sh as [|d sh IH]; intros ix; cbn.
  - split; [intros [<-|[]]; constructor|intros H; inversion H; left; reflexivity].
  - rewrite in_flat_map. split.
    + intros (i & Hi & H). apply in_map_iff in H as (ix' & <- & H).
      apply in_seq in Hi. constructor; [lia|apply IH, H].
    + intros H; inversion H as [|i ? ix' ? Hi H']; subst. exists i. split; [apply in_seq; lia|].
      apply in_map, IH, H'.
Qed.

Lemma flat_map_length_const {A B} (f : A -> list B) l n :
  (forall x, In x l -> length (f x) = n) -> length (flat_map f l) = length l * n.
Proof.
  induction l as [|x l IH]; cbn; intros H; [reflexivity|].
  rewrite app_length, H, IH; [reflexivity| |left; reflexivity].
  intros y Hy; apply H; right; exact Hy.
Qed.

Lemma length_indices sh : length (indices sh) = prodn sh.
Proof.
  induction sh as [|d sh IH]; cbn; [reflexivity|].
  rewrite flat_map_length_const with (n := prodn sh).
  - rewrite seq_length; reflexivity.
  - intros i _. rewrite map_length; exact IH.
Qed.

Lemma ravel_lt sh ix : inb sh ix -> ravel sh ix < prodn sh.
Proof.
  unfold inb. revert ix; induction sh as [|d sh IH]; intros ix H; inversion H as [|i ? ix' ? Hi H']; subst; cbn.
  - lia.
  - specialize (IH _ H').
    assert (M : S i * prodn sh <= d * prodn sh) by (apply Nat.mul_le_mono_r; lia).
    cbn in M. lia.
Qed.

Lemma nth_error_flat_map_const {A B} (f : A -> list B) n : forall l i j x,
  (forall y, In y l -> length (f y) = n) -> j < n -> nth_error l i = Some x ->
  nth_error (flat_map f l) (i * n + j) = nth_error (f x) j.
Proof.
  induction l as [|y l IH]; intros [|i] j x H Hj E; cbn in *; try discriminate.
  - inversion E; subst. rewrite nth_error_app1; [reflexivity|]. rewrite H; [exact Hj|left; reflexivity].
  - rewrite nth_error_app2 by (rewrite H by (left; reflexivity); lia).
    rewrite H by (left; reflexivity).
    replace (n + i * n + j - n) with (i * n + j) by lia. apply IH; auto.
Qed.

Lemma nth_error_seq0 n i : i < n -> nth_error (seq 0 n) i = Some i.
Proof.
  intros H. assert (E := seq_nth 0 0 H). cbn in E.
  rewrite <- E at 2. apply nth_error_nth'. rewrite seq_length; exact H.
Qed.

Lemma nth_error_ravel sh ix : inb sh ix -> nth_error (indices sh) (ravel sh ix) = Some ix.
Proof.
  unfold inb. revert ix; induction sh as [|d sh IH]; intros ix H; inversion H as [|i ? ix' ? Hi H']; subst.
  - reflexivity.
  - cbn [indices ravel]. rewrite nth_error_flat_map_const with (x := i).
    + rewrite nth_error_map, IH by exact H'. reflexivity.
    + intros y _. rewrite map_length; apply length_indices.
    + apply ravel_lt, H'.
    + apply nth_error_seq0, Hi.
Qed.

Lemma indices_NoDup sh : NoDup (indices sh).
Proof.
  induction sh as [|d sh IH]; cbn; [constructor; [tauto|constructor]|].
  assert (H : forall k n, NoDup (flat_map (fun i => map (cons i) (indices sh)) (seq k n))).
  { intros k n; revert k; induction n as [|n IHn]; intros k; cbn; [constructor|].
    assert (ND1 : NoDup (map (cons k) (indices sh))).
    { apply FinFun.Injective_map_NoDup; [|exact IH]. intros x y E; inversion E; reflexivity. }
    assert (D : forall x, In x (map (cons k) (indices sh)) ->
       ~ In x (flat_map (fun i => map (cons i) (indices sh)) (seq (S k) n))).
    { intros x Hx Hy. apply in_map_iff in Hx as (x' & <- & _).
      apply in_flat_map in Hy as (i & Hi & Hy). apply in_map_iff in Hy as (y' & E & _).
      inversion E; subst. apply in_seq in Hi; lia. }
    revert ND1 D. generalize (map (cons k) (indices sh)). intros l. 
    induction l as [|x l IHl]; cbn; intros ND1 D; [apply IHn|].
    inversion ND1; subst. constructor.
    - rewrite in_app_iff. intros [H|H]; [contradiction|]. eapply D; [left; reflexivity|exact H].
    - apply IHl; [assumption|]. intros y Hy; apply D; right; exact Hy. }
  apply H.
Qed.

Lemma wfa_tabulate sh f : wfa (tabulate sh f).
Proof. unfold wfa; cbn. rewrite map_length; apply length_indices. Qed.

Lemma shape_tabulate sh f : shape (tabulate sh f) = sh.
Proof. reflexivity. Qed.

Lemma aget_tabulate sh f ix : inb sh ix -> aget (tabulate sh f) ix = f ix.
Proof.
  intros H. unfold aget; cbn. apply nth_error_nth.
  rewrite nth_error_map, nth_error_ravel by exact H. reflexivity.
Qed.

Lemma tabulate_ext sh f g : (forall ix, inb sh ix -> f ix = g ix) -> tabulate sh f = tabulate sh g.
Proof.
  intros H; unfold tabulate; f_equal. apply map_ext_in. intros ix Hi. apply H, In_indices, Hi.
Qed.

Lemma ravel_indices sh : map (ravel sh) (indices sh) = seq 0 (prodn sh).
Proof.
  apply nth_ext with (d := 0) (d' := 0).
  - rewrite map_length, seq_length; apply length_indices.
  - intros n Hn. rewrite map_length, length_indices in Hn.
    rewrite seq_nth by exact Hn. cbn.
    destruct (nth_error (indices sh) n) as [ix|] eqn:E.
    + assert (En : nth_error (map (ravel sh) (indices sh)) n = Some (ravel sh ix))
        by (rewrite nth_error_map, E; reflexivity).
      rewrite (nth_error_nth _ _ 0 En).
      assert (I : inb sh ix) by (apply In_indices; eapply nth_error_In, E).
      assert (E2 := nth_error_ravel sh ix I).
      assert (ND := indices_NoDup sh). rewrite NoDup_nth_error in ND.
      symmetry. apply ND; [rewrite length_indices; exact Hn|congruence].
    + apply nth_error_None in E. rewrite length_indices in E; lia.
Qed.

Lemma map_nth_seq {A} (l : list A) d : map (fun i => nth i l d) (seq 0 (length l)) = l.
Proof.
  apply nth_ext with (d := d) (d' := d).
  - rewrite map_length, seq_length; reflexivity.
  - intros n Hn. rewrite map_length, seq_length in Hn.
    rewrite nth_indep with (d' := (fun i => nth i l d) 0) by (rewrite map_length, seq_length; exact Hn).
    rewrite (map_nth (fun i => nth i l d)), seq_nth by exact Hn. reflexivity.
Qed.

Lemma data_aget a : wfa a -> data a = map (aget a) (indices (shape a)).
Proof.
  intros W. unfold aget.
  rewrite <- (map_map (ravel (shape a)) (fun i => nth i (data a) 0%Qc)).
  rewrite ravel_indices, <- W. symmetry; apply map_nth_seq.
Qed.

Lemma arr_ext a b : wfa a -> wfa b -> shape a = shape b ->
  (forall ix, inb (shape a) ix -> aget a ix = aget b ix) -> a = b.
Proof.
  intros Wa Wb S H. destruct a as [sa da], b as [sb db]; cbn in *; subst sb. f_equal.
  change da with (data (mkArr sa da)). change db with (data (mkArr sa db)).
  rewrite (data_aget _ Wa), (data_aget _ Wb). cbn. apply map_ext_in.
  intros ix Hi. apply H, In_indices, Hi.
Qed.

Lemma tabulate_aget a : wfa a -> tabulate (shape a) (aget a) = a.
Proof.
  intros W. apply arr_ext; [apply wfa_tabulate|exact W|reflexivity|].
  intros ix Hi. apply aget_tabulate, Hi.
Qed.

Lemma asum_aget a : wfa a -> asum a = qsum (map (aget a) (indices (shape a))).
Proof. intros W; unfold asum. rewrite <- data_aget by exact W. reflexivity. Qed.

Lemma wfa_amap f a : wfa a -> wfa (amap f a).
Proof. unfold wfa; cbn. rewrite map_length; auto. Qed.

Lemma aget_amap f a ix : wfa a -> inb (shape a) ix -> aget (amap f a) ix = f (aget a ix).
Proof.
  intros W H. unfold aget; cbn. assert (L := ravel_lt _ _ H). rewrite <- W in L.
  rewrite nth_indep with (d' := f 0%Qc) by (rewrite map_length; exact L). apply map_nth.
Qed.

Lemma wfa_scalar q : wfa (scalar q).
Proof. reflexivity. Qed.

(** expand *)
Lemma prodn_app s1 s2 : prodn (s1 ++ s2) = prodn s1 * prodn s2.
Proof. induction s1 as [|d s IH]; cbn; [lia|]. rewrite IH; lia. Qed.

Lemma prodn_ones n : prodn (repeat 1 n) = 1.
Proof. induction n; cbn; lia. Qed.

Lemma wfa_expand a n : wfa a -> wfa (expand a n).
Proof. unfold wfa; cbn. rewrite prodn_app, prodn_ones; lia. Qed.

Lemma ravel_ones n (ix : list nat) : ravel (repeat 1 n) (map (fun _ => 0) ix) = 0.
Proof.
  revert ix; induction n; intros [|i ix]; cbn; auto.
Qed.

Lemma ravel_app s1 s2 i1 i2 : length i1 = length s1 ->
  ravel (s1 ++ s2) (i1 ++ i2) = ravel s1 i1 * prodn s2 + ravel s2 i2.
Proof.
  revert i1; induction s1 as [|d s IH]; intros [|i i1] H; cbn in *; try lia.
  rewrite IH by lia. rewrite prodn_app. lia.
Qed.

Lemma aget_expand a n ix z : length ix = length (shape a) -> Forall (fun i => i = 0) z ->
  aget (expand a n) (ix ++ z) = aget a ix.
Proof.
  intros H Z. unfold aget; cbn. rewrite ravel_app by exact H.
  rewrite prodn_ones. replace z with (map (fun _ : nat => 0) z).
  - rewrite ravel_ones. f_equal; lia.
  - induction Z; cbn; congruence.
Qed.

(** broadcasting *)
Lemma bshape_map {A} (g1 g2 c : A -> nat) l :
  (forall v, In v l -> (g1 v = c v /\ (g2 v = c v \/ g2 v = 1)) \/ (g1 v = 1 /\ g2 v = c v)) ->
  bshape (map g1 l) (map g2 l) = Ok (map c l).
Proof.
  induction l as [|v l IH]; cbn; intros H; [reflexivity|].
  rewrite IH by (intros w Hw; apply H; right; exact Hw). cbn.
  destruct (Nat.eqb_spec (g1 v) (g2 v)) as [E|n].
  - destruct (H v (or_introl eq_refl)) as [[E1 _]|[_ E1]]; congruence.
  - destruct (Nat.eqb_spec (g1 v) 1) as [E1|n1].
    + destruct (H v (or_introl eq_refl)) as [[E2 [E3|E3]]|[_ E3]]; congruence.
    + destruct (H v (or_introl eq_refl)) as [[E2 [E3|E3]]|[E2 E3]]; try congruence.
      rewrite E3. cbn. congruence.
Qed.

Lemma padded_id n sh : length sh = n -> padded n sh = sh.
Proof. intros <-. unfold padded. rewrite Nat.sub_diag. reflexivity. Qed.

Lemma bget_full a ix : length ix = rank a -> bget a ix = aget a (clip (shape a) ix).
Proof. intros H. unfold bget. rewrite H, Nat.sub_diag. reflexivity. Qed.

Lemma clip_map {A} (g h : A -> nat) l :
  clip (map g l) (map h l) = map (fun v => if Nat.eqb (g v) 1 then 0 else h v) l.
Proof. unfold clip. induction l as [|v l IH]; cbn; [reflexivity|]. rewrite IH; reflexivity. Qed.

Lemma zipb_same op a b : shape a = shape b -> 
  zipb op a b = Ok (tabulate (shape a) (fun ix => op (aget a ix) (aget b ix))).
Proof.
  intros E. unfold zipb, rank. rewrite <- E, Nat.max_id, padded_id by reflexivity.
  assert (B : bshape (shape a) (shape a) = Ok (shape a)).
  { rewrite <- (map_id (shape a)). apply (bshape_map (fun x => x) (fun x => x) (fun x => x)).
    intros; tauto. }
  rewrite B; cbn. f_equal. apply tabulate_ext. intros ix Hi.
  assert (C : clip (shape a) ix = ix).
  { unfold clip. clear B E. unfold inb in Hi.
    induction Hi as [|i d ix sh L H IH]; cbn; [reflexivity|]. rewrite IH. f_equal.
    destruct (Nat.eqb_spec d 1); lia. }
  assert (L := inb_length _ _ Hi).
  rewrite !bget_full by (unfold rank; congruence). rewrite <- E, C. reflexivity.
Qed.

Lemma bshape_ones_l s : bshape (repeat 1 (length s)) s = Ok s.
Proof.
  induction s as [|d s IH]; cbn; [reflexivity|]. rewrite IH. cbn.
  destruct d as [|[|d]]; reflexivity.
Qed.

Lemma bshape_ones_r s : bshape s (repeat 1 (length s)) = Ok s.
Proof.
  induction s as [|d s IH]; cbn; [reflexivity|]. rewrite IH. cbn.
  destruct d as [|[|d]]; reflexivity.
Qed.

Lemma clip_inb sh ix : inb sh ix -> clip sh ix = ix.
Proof.
  unfold clip, inb. induction 1 as [|i d ix sh' L H IH]; cbn; [reflexivity|]. rewrite IH. f_equal.
  destruct (Nat.eqb_spec d 1); lia.
Qed.

Lemma zipb_scalar_l op q b : 
  zipb op (scalar q) b = Ok (tabulate (shape b) (fun ix => op q (aget b ix))).
Proof.
  unfold zipb, rank; cbn [scalar shape length Nat.max].
  rewrite (padded_id (length (shape b)) (shape b)) by reflexivity.
  unfold padded. cbn [length]. rewrite Nat.sub_0_r, app_nil_r, bshape_ones_l.
  cbn [rbind]. f_equal. apply tabulate_ext. intros ix Hi.
  rewrite (bget_full b) by apply inb_length, Hi. rewrite clip_inb by exact Hi. reflexivity.
Qed.

Lemma zipb_scalar_r op q a : 
  zipb op a (scalar q) = Ok (tabulate (shape a) (fun ix => op (aget a ix) q)).
Proof.
  unfold zipb, rank; cbn [scalar shape length]. rewrite Nat.max_0_r.
  rewrite (padded_id (length (shape a)) (shape a)) by reflexivity.
  unfold padded. cbn [length]. rewrite Nat.sub_0_r, app_nil_r, bshape_ones_r.
  cbn [rbind]. f_equal. apply tabulate_ext. intros ix Hi.
  rewrite (bget_full a) by apply inb_length, Hi. rewrite clip_inb by exact Hi. reflexivity.
Qed.

Lemma wfa_rank0 a : wfa a -> shape a = [] -> a = scalar (aget a []).
Proof.
  destruct a as [sh d]; cbn; intros W ->. unfold wfa in W; cbn in W.
  destruct d as [|x [|y d]]; cbn in W; try discriminate. reflexivity.
Qed.

(** transposition *)
Lemma existsb_eqb_In x l : existsb (Nat.eqb x) l = true <-> In x l.
Proof.
  rewrite existsb_exists. split.
  - intros (y & Hy & E). apply Nat.eqb_eq in E; subst; exact Hy.
  - intros H; exists x; split; [exact H|apply Nat.eqb_refl].
Qed.

Lemma nodupb_NoDup l : nodupb l = true <-> NoDup l.
Proof.
  induction l as [|x l IH]; cbn; [split; [constructor|reflexivity]|].
  rewrite andb_true_iff, negb_true_iff, IH. split.
  - intros [H1 H2]. constructor; [|exact H2]. rewrite <- existsb_eqb_In. congruence.
  - intros H; inversion H; subst. split; [|assumption].
    destruct (existsb (Nat.eqb x) l) eqn:E; [|reflexivity]. apply existsb_eqb_In in E; contradiction.
Qed.

Lemma pos_of_map {A} (g : A -> nat) (l : list A) k d :
  NoDup (map g l) -> k < length l -> pos_of (g (nth k l d)) (map g l) = k.
Proof.
  revert k; induction l as [|x l IH]; cbn; intros k ND H; [lia|].
  inversion ND; subst. destruct k as [|k].
  - rewrite Nat.eqb_refl; reflexivity.
  - destruct (Nat.eqb_spec (g x) (g (nth k l d))) as [E|n].
    + exfalso. apply H2. rewrite E. apply in_map, nth_In; lia.
    + rewrite IH; [reflexivity|assumption|lia].
Qed.

(** Arrays with named axes: transposing from [o1] to [o2]. *)
Lemma transpose_named (a : ndarray) (o1 o2 : list string) (g : string -> nat) :
  NoDup o1 -> NoDup o2 -> (forall v, In v o1 <-> In v o2) ->
  shape a = map g o1 ->
  exists b, transpose a (map (fun v => idx v o1) o2) = Ok b /\ wfa b /\ shape b = map g o2 /\
    forall h, (forall v, In v o2 -> h v < g v) -> aget b (map h o2) = aget a (map h o1).
Proof.
  intros N1 N2 S E. set (perm := map (fun v => idx v o1) o2).
  assert (P : Permutation o1 o2) by (apply NoDup_Permutation; assumption).
  assert (Lp := Permutation_length P).
  assert (ND : NoDup perm).
  { unfold perm. clear - N2 S.
    induction N2 as [|x l n N IH] in o1, S |- * ; cbn; [constructor|].
    assert (D : forall l', incl l' o1 -> ~ In x l' -> NoDup l' -> NoDup (map (fun v => idx v o1) l') /\
        (In x o1 -> ~ In (idx x o1) (map (fun v => idx v o1) l'))).
    { intros l' I n' N'. split.
      - clear n'. induction N' as [|y l' n' N' IH']; cbn; constructor.
        + intros H. apply in_map_iff in H as (z & Ez & Hz). apply idx_inj in Ez; subst; auto.
          * apply I; right; exact Hz. * apply I; left; reflexivity.
        + apply IH'. intros z Hz; apply I; right; exact Hz.
      - intros Hx H. apply in_map_iff in H as (z & Ez & Hz). apply idx_inj in Ez; subst; auto. }
    destruct (D l) as [D1 D2]; [intros z Hz; apply S; right; exact Hz|assumption|assumption|].
    constructor; [apply D2; apply S; left; reflexivity|exact D1]. }
  assert (R : rank a = length o1) by (unfold rank; rewrite E, map_length; reflexivity).
  unfold transpose. replace (is_perm (rank a) perm) with true.
  2: { symmetry. unfold is_perm. rewrite !andb_true_iff. repeat split.
       - apply Nat.eqb_eq. unfold perm. rewrite map_length; lia.
       - apply nodupb_NoDup, ND.
       - apply forallb_forall. intros k Hk. unfold perm in Hk. apply in_map_iff in Hk as (v & <- & Hv).
         apply Nat.ltb_lt. rewrite R. apply idx_lt, S, Hv. }
  assert (Sh : map (fun k => nth k (shape a) 0) perm = map g o2).
  { unfold perm. rewrite map_map. apply map_ext_in. intros v Hv. rewrite E.
    apply S in Hv. rewrite nth_indep with (d' := g v) by (rewrite map_length; apply idx_lt, Hv).
    rewrite (map_nth g). rewrite nth_idx by exact Hv. reflexivity. }
  eexists; split; [reflexivity|]. rewrite Sh. split; [apply wfa_tabulate|]. split; [reflexivity|].
  intros h Hh. rewrite aget_tabulate.
  - f_equal. rewrite R. apply nth_ext with (d := 0) (d' := 0); [rewrite !map_length, seq_length; reflexivity|].
    intros n Hn. rewrite map_length, seq_length in Hn.
    set (F := fun m => nth (pos_of m perm) (map h o2) 0).
    rewrite nth_indep with (d' := F 0) by (rewrite map_length, seq_length; exact Hn).
    rewrite (map_nth F), seq_nth by exact Hn. unfold F; cbn.
    assert (Hv : In (nth n o1 "") o2) by (apply S, nth_In, Hn).
    set (v := nth n o1 "") in *.
    assert (En : n = (fun v => idx v o1) (nth (idx v o2) o2 "")).
    { rewrite nth_idx by exact Hv. unfold v. rewrite idx_nth; auto. }
    assert (Ep : pos_of n perm = idx v o2).
    { rewrite En. unfold perm. apply (pos_of_map (fun v => idx v o1)); [exact ND|apply idx_lt, Hv]. }
    rewrite Ep.
    rewrite nth_indep with (d' := h "") by (rewrite map_length; apply idx_lt, Hv).
    rewrite (map_nth h), nth_idx by exact Hv.
    rewrite nth_indep with (d' := h "") by (rewrite map_length; exact Hn).
    rewrite (map_nth h). reflexivity.
  - unfold inb. clear - Hh. induction o2 as [|v l IH]; cbn; constructor.
    + apply Hh; left; reflexivity. + apply IH; intros w Hw; apply Hh; right; exact Hw.
Qed.

Lemma inb_map {A} (g h : A -> nat) l : (forall v, In v l -> h v < g v) -> inb (map g l) (map h l).
Proof.
  intros H. unfold inb. induction l as [|v l IH]; cbn; constructor.
  - apply H; left; reflexivity. - apply IH; intros w Hw; apply H; right; exact Hw.
Qed.

(** list_insert against list_del *)
Lemma list_insert_del {A} k (l : list A) d : k < length l ->
  list_insert k (nth k l d) (list_del k l) = l.
Proof.
  revert k; induction l as [|x l IH]; intros [|k] H; cbn in *; try lia; [reflexivity|].
  rewrite IH by lia; reflexivity.
Qed.

Lemma shape_sum_axis k a : shape (sum_axis k a) = list_del k (shape a).
Proof. reflexivity. Qed.
