(** Lemmas about the vocabulary of Base.v (lists, dictionaries, numbers). *)
From Verif Require Import Base.
From Coq Require Import Field.

Lemma rbind_ok {A B} (x : res A) (f : A -> res B) b :
  rbind x f = Ok b <-> exists a, x = Ok a /\ f a = Ok b.
Proof.
  destruct x; cbn; split; intros H.
  - eauto. - destruct H as (a' & E & H). congruence.
  - discriminate. - destruct H as (a' & E & H). discriminate.
Qed.

Lemma rbind_assoc {A B C} (x : res A) (f : A -> res B) (g : B -> res C) :
  rbind (rbind x f) g = rbind x (fun a => rbind (f a) g).
Proof. destruct x; reflexivity. Qed.

Lemma foldM_app {A B} (f : B -> A -> res B) l1 l2 b :
  foldM f (l1 ++ l2) b = let* b' := foldM f l1 b in foldM f l2 b'.
Proof.
  revert b; induction l1 as [|x l1 IH]; intros b; cbn; [reflexivity|].
  destruct (f b x); cbn; [apply IH|reflexivity].
Qed.

Lemma mapM_ok {A B} (f : A -> res B) l ys :
  mapM f l = Ok ys <-> Forall2 (fun x y => f x = Ok y) l ys.
Proof.
  revert ys; induction l as [|x l IH]; intros ys; cbn.
  - split; intros H; [inversion H; constructor|inversion H; reflexivity].
  - split; intros H.
    + apply rbind_ok in H as (y & E & H). apply rbind_ok in H as (ys' & E2 & H).
      inversion H; subst. constructor; [exact E|apply IH, E2].
    + inversion H as [|? y ? ys' E H' ]; subst. rewrite E; cbn.
      apply IH in H'. rewrite H'; reflexivity.
Qed.

Lemma mapM_total {A B} (f : A -> res B) (g : A -> B) l :
  (forall x, In x l -> f x = Ok (g x)) -> mapM f l = Ok (map g l).
Proof.
  intros H; apply mapM_ok. induction l as [|x l IH]; cbn; constructor.
  - apply H; left; reflexivity.
  - apply IH; intros y Hy; apply H; right; exact Hy.
Qed.

Lemma mapM_app {A B} (f : A -> res B) l1 l2 :
  mapM f (l1 ++ l2) = let* a := mapM f l1 in let* b := mapM f l2 in Ok (a ++ b).
Proof.
  induction l1 as [|x l1 IH]; cbn.
  - destruct (mapM f l2); reflexivity.
  - destruct (f x); cbn; [|reflexivity]. rewrite IH.
    destruct (mapM f l1); cbn; [|reflexivity].
    destruct (mapM f l2); reflexivity.
Qed.

Lemma mapM_ext {A B} (f g : A -> res B) l :
  (forall x, In x l -> f x = g x) -> mapM f l = mapM g l.
Proof.
  induction l as [|x l IH]; intros H; cbn; [reflexivity|].
  rewrite H by (left; reflexivity). rewrite IH; [reflexivity|].
  intros y Hy; apply H; right; exact Hy.
Qed.

Lemma mapM_length {A B} (f : A -> res B) l ys : mapM f l = Ok ys -> length ys = length l.
Proof. intros H; apply mapM_ok in H. induction H; cbn; congruence. Qed.

Lemma foldM_inv {A B} (f : B -> A -> res B) (P : B -> Prop) l b b' :
  (forall b x b', In x l -> P b -> f b x = Ok b' -> P b') ->
  foldM f l b = Ok b' -> P b -> P b'.
Proof.
  revert b; induction l as [|x l IH]; cbn; intros b H E Pb.
  - inversion E; subst; exact Pb.
  - apply rbind_ok in E as (b1 & E1 & E2). eapply IH; [|exact E2|].
    + intros; eapply H; [right|..]; eassumption.
    + eapply H; [left; reflexivity| exact Pb | exact E1].
Qed.

(** ** Strings in lists *)

Lemma eqb_refl_s x : String.eqb x x = true.
Proof. apply String.eqb_refl. Qed.

Lemma eqb_neq_s x y : x <> y -> String.eqb x y = false.
Proof. apply String.eqb_neq. Qed.

Lemma mem_In x l : mem x l = true <-> In x l.
Proof.
  unfold mem. rewrite existsb_exists. split.
  - intros (y & Hy & E). apply String.eqb_eq in E; subst; exact Hy.
  - intros H; exists x; split; [exact H|apply String.eqb_refl].
Qed.

Lemma mem_nIn x l : mem x l = false <-> ~ In x l.
Proof. rewrite <- mem_In. destruct (mem x l); split; congruence. Qed.

Lemma In_dec_s (x : string) l : {In x l} + {~ In x l}.
Proof. apply in_dec, string_dec. Qed.

Lemma subset_spec a b : subset a b = true <-> incl a b.
Proof.
  unfold subset. rewrite forallb_forall. split; intros H x Hx.
  - apply mem_In, H, Hx. - apply mem_In, H, Hx.
Qed.

Lemma index_of_Some x l i : index_of x l = Some i -> nth_error l i = Some x /\ i < length l.
Proof.
  revert i; induction l as [|y l IH]; cbn; intros i H; [discriminate|].
  destruct (String.eqb_spec x y).
  - inversion H; subst; cbn; split; [reflexivity|lia].
  - destruct (index_of x l) as [j|] eqn:E; [|discriminate]. inversion H; subst; cbn.
    destruct (IH j eq_refl); split; [assumption|lia].
Qed.

Lemma index_of_None x l : index_of x l = None <-> ~ In x l.
Proof.
  induction l as [|y l IH]; cbn; [tauto|].
  destruct (String.eqb_spec x y) as [->|n].
  - split; [discriminate|tauto].
  - destruct (index_of x l) as [j|].
    + split; [discriminate|]. intros H. exfalso. apply H. right.
      destruct (In_dec_s x l) as [i|i]; [exact i|]. apply IH in i; discriminate.
    + split; [|reflexivity]. intros _ [H|H]; [congruence|]. apply IH in H; [exact H|reflexivity].
Qed.

Lemma index_of_In x l : In x l -> exists i, index_of x l = Some i.
Proof.
  intros H. destruct (index_of x l) as [i|] eqn:E; [eauto|].
  apply index_of_None in E; contradiction.
Qed.

Lemma index_of_nth l i d : NoDup l -> i < length l -> index_of (nth i l d) l = Some i.
Proof.
  revert i; induction l as [|y l IH]; cbn; intros i ND H; [lia|].
  inversion ND; subst. destruct i as [|i].
  - rewrite String.eqb_refl; reflexivity.
  - rewrite eqb_neq_s. + rewrite IH; [reflexivity|assumption|lia].
    + intros E. apply H2. rewrite <- E. apply nth_In; lia.
Qed.

Lemma index_of_nth_error l i x : NoDup l -> nth_error l i = Some x -> index_of x l = Some i.
Proof.
  intros ND H. rewrite <- (nth_error_nth l i x H) at 1.
  apply index_of_nth; [exact ND|]. apply nth_error_Some; congruence.
Qed.

Lemma index_of_app x l1 l2 :
  index_of x (l1 ++ l2) = match index_of x l1 with
    | Some i => Some i
    | None => match index_of x l2 with Some i => Some (length l1 + i) | None => None end end.
Proof.
  induction l1 as [|y l1 IH]; cbn.
  - destruct (index_of x l2); reflexivity.
  - destruct (String.eqb x y); [reflexivity|]. rewrite IH.
    destruct (index_of x l1); [reflexivity|]. destruct (index_of x l2); reflexivity.
Qed.

(** Position of a variable, total version. *)
Definition idx (x : string) (l : list string) : nat :=
  match index_of x l with Some i => i | None => 0 end.

Lemma idx_lt x l : In x l -> idx x l < length l.
Proof.
  intros H; unfold idx. destruct (index_of_In x l H) as [i E]; rewrite E.
  apply index_of_Some in E; tauto.
Qed.

Lemma nth_idx x l d : In x l -> nth (idx x l) l d = x.
Proof.
  intros H; unfold idx. destruct (index_of_In x l H) as [i E]; rewrite E.
  apply index_of_Some in E as [E _]. apply nth_error_nth with (d := d) in E; exact E.
Qed.

Lemma py_index_ok x l : In x l -> py_index x l = Ok (idx x l).
Proof.
  intros H; unfold py_index, idx. destruct (index_of_In x l H) as [i E]; rewrite E; reflexivity.
Qed.

Lemma py_index_Ok_iff x l i : py_index x l = Ok i <-> index_of x l = Some i.
Proof. unfold py_index; destruct (index_of x l); split; congruence. Qed.

Lemma py_index_err x l : ~ In x l -> py_index x l = Err ValueError.
Proof. intros H. apply index_of_None in H. unfold py_index; rewrite H; reflexivity. Qed.

Lemma idx_inj x y l : In x l -> In y l -> idx x l = idx y l -> x = y.
Proof.
  intros Hx Hy E. rewrite <- (nth_idx x l x Hx), <- (nth_idx y l x Hy), E; reflexivity.
Qed.

Lemma idx_nth i l d : NoDup l -> i < length l -> idx (nth i l d) l = i.
Proof. intros ND H. unfold idx. rewrite index_of_nth; auto. Qed.

Lemma remove1_notin x l : ~ In x l -> remove1 x l = l.
Proof.
  induction l as [|y l IH]; cbn; intros H; [reflexivity|].
  rewrite eqb_neq_s by (intros ->; tauto). rewrite IH; tauto.
Qed.

Lemma remove1_perm x l : In x l -> Permutation l (x :: remove1 x l).
Proof.
  induction l as [|y l IH]; cbn; intros H; [tauto|].
  destruct (String.eqb_spec x y) as [->|n]; [reflexivity|].
  destruct H as [H|H]; [congruence|].
  rewrite (IH H) at 1. apply perm_swap.
Qed.

Lemma remove1_incl x l : incl (remove1 x l) l.
Proof.
  induction l as [|y l IH]; cbn; intros z Hz; [exact Hz|].
  destruct (String.eqb x y); [right; exact Hz|].
  destruct Hz as [->|Hz]; [left; reflexivity|right; apply IH, Hz].
Qed.

Lemma remove1_In x l y : NoDup l -> (In y (remove1 x l) <-> In y l /\ y <> x).
Proof.
  intros ND. destruct (In_dec_s x l) as [i|n].
  - assert (P := remove1_perm x l i).
    assert (ND' : NoDup (x :: remove1 x l)) by (eapply Permutation_NoDup; eassumption).
    inversion ND'; subst. split.
    + intros Hy; split; [apply (remove1_incl x l), Hy|intros ->; contradiction].
    + intros [Hy Hne]. apply (Permutation_in _ P) in Hy. destruct Hy; [congruence|assumption].
  - rewrite remove1_notin by exact n. split; [|tauto]. intros H; split; [exact H|].
    intros ->; contradiction.
Qed.

Lemma remove1_NoDup x l : NoDup l -> NoDup (remove1 x l).
Proof.
  intros ND. destruct (In_dec_s x l) as [i|n].
  - assert (P := remove1_perm x l i). apply (Permutation_NoDup P) in ND. inversion ND; assumption.
  - rewrite remove1_notin; assumption.
Qed.

Lemma remove1_list_del x l i : index_of x l = Some i -> remove1 x l = list_del i l.
Proof.
  revert i; induction l as [|y l IH]; cbn; intros i H; [discriminate|].
  destruct (String.eqb x y).
  - inversion H; subst; reflexivity.
  - destruct (index_of x l) as [j|] eqn:E; [|discriminate]. inversion H; subst.
    cbn. rewrite <- IH; reflexivity.
Qed.

Lemma remove1_length x l : In x l -> S (length (remove1 x l)) = length l.
Proof. intros H. apply remove1_perm in H. apply Permutation_length in H. cbn in H; lia. Qed.

Lemma list_del_map {A B} (f : A -> B) i l : list_del i (map f l) = map f (list_del i l).
Proof.
  revert i; induction l as [|y l IH]; intros [|i]; cbn; try reflexivity.
  rewrite IH; reflexivity.
Qed.

Lemma list_set_length {A} i (x : A) l : length (list_set i x l) = length l.
Proof.
  revert i; induction l as [|y l IH]; intros [|i]; cbn; try reflexivity. rewrite IH; reflexivity.
Qed.

Lemma list_set_nth_eq {A} i (x : A) l d : i < length l -> nth i (list_set i x l) d = x.
Proof.
  revert i; induction l as [|y l IH]; intros [|i]; cbn; intros H; try lia; [reflexivity|].
  apply IH; lia.
Qed.

Lemma list_set_nth_neq {A} i j (x : A) l d : i <> j -> nth j (list_set i x l) d = nth j l d.
Proof.
  revert i j; induction l as [|y l IH]; intros [|i] [|j]; cbn; intros H; try lia; try reflexivity.
  apply IH; lia.
Qed.

(** ** Dictionaries *)

Section Dict.
Context {A : Type}.
Implicit Types d : dict A.

Lemma dget_dset_eq k v d : dget k (dset k v d) = Some v.
Proof.
  induction d as [|[k' v'] d IH]; cbn.
  - rewrite String.eqb_refl; reflexivity.
  - destruct (String.eqb_spec k k') as [->|n]; cbn.
    + rewrite String.eqb_refl; reflexivity.
    + rewrite (eqb_neq_s _ _ n); exact IH.
Qed.

Lemma dget_dset_neq k k' v d : k <> k' -> dget k (dset k' v d) = dget k d.
Proof.
  intros n. induction d as [|[k2 v2] d IH]; cbn.
  - rewrite (eqb_neq_s _ _ n); reflexivity.
  - destruct (String.eqb_spec k' k2) as [->|n2]; cbn.
    + rewrite (eqb_neq_s _ _ n); reflexivity.
    + destruct (String.eqb k k2); [reflexivity|exact IH].
Qed.

Lemma dget_dset k k' v d :
  dget k (dset k' v d) = if String.eqb k k' then Some v else dget k d.
Proof.
  destruct (String.eqb_spec k k') as [->|n]; [apply dget_dset_eq|apply dget_dset_neq, n].
Qed.

Lemma dkeys_dset k v d :
  dkeys (dset k v d) = if mem k (dkeys d) then dkeys d else dkeys d ++ [k].
Proof.
  unfold dkeys. induction d as [|[k' v'] d IH]; cbn; [reflexivity|].
  destruct (String.eqb_spec k k') as [->|n]; cbn; [reflexivity|].
  rewrite IH. unfold mem. destruct (existsb _ _); reflexivity.
Qed.

Lemma dget_In k d v : dget k d = Some v -> In (k, v) d.
Proof.
  induction d as [|[k' v'] d IH]; cbn; [discriminate|].
  destruct (String.eqb_spec k k') as [->|n]; intros H.
  - inversion H; subst; left; reflexivity.
  - right; apply IH, H.
Qed.

Lemma dget_Some_key k d v : dget k d = Some v -> In k (dkeys d).
Proof. intros H. apply dget_In in H. apply (in_map fst) in H. exact H. Qed.

Lemma dget_None k d : dget k d = None <-> ~ In k (dkeys d).
Proof.
  induction d as [|[k' v'] d IH]; cbn; [tauto|].
  destruct (String.eqb_spec k k') as [->|n].
  - split; [discriminate|tauto].
  - rewrite IH. split; [intros H [E|H']; [congruence|tauto]|tauto].
Qed.

Lemma dget_key k d : In k (dkeys d) -> exists v, dget k d = Some v.
Proof.
  intros H. destruct (dget k d) as [v|] eqn:E; [eauto|]. apply dget_None in E; contradiction.
Qed.

Lemma dmem_In k d : dmem k d = true <-> In k (dkeys d).
Proof.
  unfold dmem. destruct (dget k d) eqn:E.
  - split; [intros _; eapply dget_Some_key, E|reflexivity].
  - apply dget_None in E. split; [discriminate|contradiction].
Qed.

Lemma dmem_nIn k d : dmem k d = false <-> ~ In k (dkeys d).
Proof. rewrite <- dmem_In. destruct (dmem k d); split; congruence. Qed.

Lemma In_dget k v d : NoDup (dkeys d) -> In (k, v) d -> dget k d = Some v.
Proof.
  induction d as [|[k' v'] d IH]; cbn; intros ND H; [tauto|].
  inversion ND as [|? ? n ND']; subst. destruct H as [H|H].
  - inversion H; subst. rewrite String.eqb_refl; reflexivity.
  - rewrite eqb_neq_s; [apply IH; assumption|].
    intros ->. apply n. apply (in_map fst) in H; exact H.
Qed.

Lemma dkeys_ddel k d : dkeys (ddel k d) = remove1 k (dkeys d).
Proof.
  unfold dkeys. induction d as [|[k' v'] d IH]; cbn; [reflexivity|].
  destruct (String.eqb k k'); cbn; [reflexivity|]. rewrite IH; reflexivity.
Qed.

Lemma dget_ddel_neq k k' d : k <> k' -> dget k (ddel k' d) = dget k d.
Proof.
  intros n. induction d as [|[k2 v2] d IH]; cbn; [reflexivity|].
  destruct (String.eqb_spec k' k2) as [->|n2]; cbn.
  - rewrite (eqb_neq_s _ _ n); reflexivity.
  - destruct (String.eqb k k2); [reflexivity|exact IH].
Qed.

Lemma dget_ddel_eq k d : NoDup (dkeys d) -> dget k (ddel k d) = None.
Proof.
  intros ND. apply dget_None. rewrite dkeys_ddel. rewrite remove1_In by exact ND. tauto.
Qed.

Lemma dset_NoDup k v d : NoDup (dkeys d) -> NoDup (dkeys (dset k v d)).
Proof.
  intros ND. rewrite dkeys_dset. destruct (mem k (dkeys d)) eqn:E; [exact ND|].
  apply mem_nIn in E. apply (Permutation_NoDup (l := k :: dkeys d)).
  - apply Permutation_cons_append. - constructor; assumption.
Qed.

Lemma ddel_NoDup k d : NoDup (dkeys d) -> NoDup (dkeys (ddel k d)).
Proof. rewrite dkeys_ddel; apply remove1_NoDup. Qed.

Lemma In_dkeys_dset x k v d : In x (dkeys (dset k v d)) <-> x = k \/ In x (dkeys d).
Proof.
  rewrite dkeys_dset. destruct (mem k (dkeys d)) eqn:E.
  - apply mem_In in E. split; [tauto|intros [->|H]; assumption].
  - rewrite in_app_iff; cbn. split; [intros [H|[->|[]]]; tauto|intros [->|H]; tauto].
Qed.

Lemma dget_err_ok e k d v : dget_err e k d = Ok v <-> dget k d = Some v.
Proof. unfold dget_err; destruct (dget k d); split; congruence. Qed.

End Dict.

(** ** Numbers *)

Lemma qeqb_true x y : qeqb x y = true <-> x = y.
Proof.
  unfold qeqb, Qc_eq_bool. destruct (Qc_eq_dec x y); split; congruence.
Qed.

Lemma qeqb_false x y : qeqb x y = false <-> x <> y.
Proof. rewrite <- qeqb_true. destruct (qeqb x y); split; congruence. Qed.

Lemma qltb_true x y : qltb x y = true <-> (x < y)%Qc.
Proof.
  unfold qltb. rewrite Qclt_alt. destruct (Qccompare x y); split; congruence.
Qed.

Lemma qltb_false x y : qltb x y = false <-> (y <= x)%Qc.
Proof.
  split; intros H.
  - apply Qcnot_lt_le. intros E. apply qltb_true in E; congruence.
  - destruct (qltb x y) eqn:E; [|reflexivity]. apply qltb_true in E.
    exfalso; eapply Qclt_not_le; eassumption.
Qed.

Lemma qleb_true x y : qleb x y = true <-> (x <= y)%Qc.
Proof. unfold qleb. rewrite negb_true_iff. apply qltb_false. Qed.

Lemma Qc_lt_irrefl (x : Qc) : ~ (x < x)%Qc.
Proof. intros H. eapply Qclt_not_le; [exact H|apply Qcle_refl]. Qed.

Lemma Qcplus_nonneg (x y : Qc) : (0 <= x -> 0 <= y -> 0 <= x + y)%Qc.
Proof.
  intros Hx Hy. replace 0%Qc with (0 + 0)%Qc by ring. apply Qcplus_le_compat; assumption.
Qed.

Lemma Qcmult_nonneg (x y : Qc) : (0 <= x -> 0 <= y -> 0 <= x * y)%Qc.
Proof.
  intros Hx Hy. replace 0%Qc with (0 * y)%Qc by ring. apply Qcmult_le_compat_r; assumption.
Qed.

Lemma Qcmult_pos (x y : Qc) : (0 < x -> 0 < y -> 0 < x * y)%Qc.
Proof.
  intros Hx Hy. replace 0%Qc with (0 * y)%Qc by ring. apply Qcmult_lt_compat_r; assumption.
Qed.

Lemma Qcinv_pos (x : Qc) : (0 < x -> 0 < / x)%Qc.
Proof.
  intros H. destruct (Qc_dec 0 (/ x)) as [[D|D]|D]; [exact D| |].
  - exfalso. assert (E : (/ x * x < 0 * x)%Qc) by (apply Qcmult_lt_compat_r; assumption).
    rewrite Qcmult_comm, Qcmult_inv_r in E by (intros ->; apply (Qc_lt_irrefl 0 H)).
    replace (0 * x)%Qc with 0%Qc in E by ring. revert E. apply Qcle_not_lt. discriminate.
  - exfalso. assert (E : (x * / x = 1)%Qc) by (apply Qcmult_inv_r; intros ->; apply (Qc_lt_irrefl 0 H)).
    rewrite <- D in E. replace (x * 0)%Qc with 0%Qc in E by ring. discriminate.
Qed.

Lemma Qcdiv_nonneg (x y : Qc) : (0 <= x -> 0 < y -> 0 <= x / y)%Qc.
Proof.
  intros Hx Hy. unfold Qcdiv. apply Qcmult_nonneg; [exact Hx|]. apply Qclt_le_weak, Qcinv_pos, Hy.
Qed.

Lemma Qc_pos_neq0 (x : Qc) : (0 < x)%Qc -> x <> 0%Qc.
Proof. intros H ->. exact (Qc_lt_irrefl _ H). Qed.

Lemma Qc_nonneg_neq0_pos (x : Qc) : (0 <= x)%Qc -> x <> 0%Qc -> (0 < x)%Qc.
Proof. intros H n. destruct (Qcle_lt_or_eq _ _ H) as [L|E]; [exact L|congruence]. Qed.

Lemma qsum_cons x l : qsum (x :: l) = (x + qsum l)%Qc.
Proof. reflexivity. Qed.

Lemma qprod_cons x l : qprod (x :: l) = (x * qprod l)%Qc.
Proof. reflexivity. Qed.

Lemma qsum_app l1 l2 : qsum (l1 ++ l2) = (qsum l1 + qsum l2)%Qc.
Proof.
  induction l1 as [|x l IH]; cbn [app]; rewrite ?qsum_cons; [cbn; ring|]. rewrite IH; ring.
Qed.

Lemma qsum_perm l1 l2 : Permutation l1 l2 -> qsum l1 = qsum l2.
Proof. induction 1; cbn in *; try congruence; ring. Qed.

Lemma qprod_perm l1 l2 : Permutation l1 l2 -> qprod l1 = qprod l2.
Proof. induction 1; cbn in *; try congruence; ring. Qed.

Lemma qprod_app l1 l2 : qprod (l1 ++ l2) = (qprod l1 * qprod l2)%Qc.
Proof.
  induction l1 as [|x l IH]; cbn [app]; rewrite ?qprod_cons; [cbn; ring|]. rewrite IH; ring.
Qed.

Lemma qsum_map_ext {A} (f g : A -> Qc) l :
  (forall x, In x l -> f x = g x) -> qsum (map f l) = qsum (map g l).
Proof. intros H. rewrite (map_ext_in f g l H); reflexivity. Qed.

Lemma qsum_mult_l {A} (c : Qc) (f : A -> Qc) l :
  qsum (map (fun x => c * f x)%Qc l) = (c * qsum (map f l))%Qc.
Proof.
  induction l as [|x l IH]; cbn [map]; rewrite ?qsum_cons; [cbn; ring|]. rewrite IH; ring.
Qed.

Lemma qsum_plus {A} (f g : A -> Qc) l :
  qsum (map (fun x => f x + g x)%Qc l) = (qsum (map f l) + qsum (map g l))%Qc.
Proof.
  induction l as [|x l IH]; cbn [map]; rewrite ?qsum_cons; [cbn; ring|]. rewrite IH; ring.
Qed.

Lemma qsum_zero {A} (f : A -> Qc) l : (forall x, In x l -> f x = 0%Qc) -> qsum (map f l) = 0%Qc.
Proof.
  induction l as [|x l IH]; cbn; intros H; [reflexivity|].
  rewrite H, IH; [ring| |left; reflexivity]. intros y Hy; apply H; right; exact Hy.
Qed.

Lemma qsum_swap {A B} (f : A -> B -> Qc) l1 l2 :
  qsum (map (fun x => qsum (map (f x) l2)) l1) = qsum (map (fun y => qsum (map (fun x => f x y) l1)) l2).
Proof.
  induction l1 as [|x l1 IH]; cbn.
  - rewrite qsum_zero; [reflexivity|]. intros; reflexivity.
  - rewrite IH, <- qsum_plus. reflexivity.
Qed.

Lemma qsum_flat_map {A B} (g : A -> list B) (f : B -> Qc) l :
  qsum (map f (flat_map g l)) = qsum (map (fun x => qsum (map f (g x))) l).
Proof.
  induction l as [|x l IH]; cbn; [reflexivity|]. rewrite map_app, qsum_app, IH; reflexivity.
Qed.

Lemma qsum_nonneg l : Forall (fun x => 0 <= x)%Qc l -> (0 <= qsum l)%Qc.
Proof.
  induction 1; cbn; [discriminate|]. apply Qcplus_nonneg; assumption.
Qed.

Lemma qsum_nonneg_zero l : Forall (fun x => 0 <= x)%Qc l -> qsum l = 0%Qc ->
  Forall (fun x => x = 0%Qc) l.
Proof.
  induction 1 as [|x l Hx Hl IH]; cbn; intros E; [constructor|].
  assert (S0 := qsum_nonneg l Hl).
  assert (Ex : x = 0%Qc).
  { apply Qcle_antisym; [|exact Hx].
    replace x with (- qsum l)%Qc.
    - replace 0%Qc with (- 0)%Qc by ring. apply Qcopp_le_compat; exact S0.
    - replace x with (x + qsum l - qsum l)%Qc by ring. rewrite E; ring. }
  constructor; [exact Ex|]. apply IH. rewrite Ex in E. rewrite <- E; ring.
Qed.

Lemma bigsum_ext n F G : (forall i, i < n -> F i = G i) -> bigsum n F = bigsum n G.
Proof. intros H. apply qsum_map_ext. intros i Hi. apply in_seq in Hi. apply H; lia. Qed.

Lemma bigsum_mult_l n c F : bigsum n (fun i => c * F i)%Qc = (c * bigsum n F)%Qc.
Proof. apply qsum_mult_l. Qed.

Lemma bigsum_mult_r n c F : bigsum n (fun i => F i * c)%Qc = (bigsum n F * c)%Qc.
Proof.
  rewrite Qcmult_comm, <- bigsum_mult_l. apply bigsum_ext; intros; ring.
Qed.

Lemma bigsum_plus n F G : bigsum n (fun i => F i + G i)%Qc = (bigsum n F + bigsum n G)%Qc.
Proof. apply qsum_plus. Qed.

Lemma bigsum_swap n m F :
  bigsum n (fun i => bigsum m (F i)) = bigsum m (fun j => bigsum n (fun i => F i j)).
Proof. apply qsum_swap. Qed.

Lemma bigsum_zero n F : (forall i, i < n -> F i = 0%Qc) -> bigsum n F = 0%Qc.
Proof. intros H. apply qsum_zero. intros i Hi. apply in_seq in Hi; apply H; lia. Qed.

Lemma bigsum_nonneg n F : (forall i, i < n -> (0 <= F i)%Qc) -> (0 <= bigsum n F)%Qc.
Proof.
  intros H. apply qsum_nonneg. apply Forall_forall. intros x Hx.
  apply in_map_iff in Hx as (i & <- & Hi). apply in_seq in Hi. apply H; lia.
Qed.

Lemma bigsum_nonneg_zero n F : (forall i, i < n -> (0 <= F i)%Qc) -> bigsum n F = 0%Qc ->
  forall i, i < n -> F i = 0%Qc.
Proof.
  intros H E i Hi. unfold bigsum in E. apply qsum_nonneg_zero in E.
  - rewrite Forall_forall in E. apply E. apply in_map_iff. exists i; split; [reflexivity|].
    apply in_seq; lia.
  - apply Forall_forall. intros x Hx.
    apply in_map_iff in Hx as (j & <- & Hj). apply in_seq in Hj. apply H; lia.
Qed.

Lemma bigsum_S n F : bigsum (S n) F = (F O + bigsum n (fun i => F (S i)))%Qc.
Proof.
  unfold bigsum. cbn [seq map qsum]. rewrite <- seq_shift, map_map. reflexivity.
Qed.

Lemma bigsum_single n F k : k < n -> (forall i, i < n -> i <> k -> F i = 0%Qc) -> bigsum n F = F k.
Proof.
  revert F k; induction n as [|n IH]; intros F k Hk H; [lia|].
  rewrite bigsum_S. destruct k as [|k].
  - rewrite bigsum_zero; [ring|]. intros i Hi; apply H; lia.
  - rewrite H by lia. rewrite (IH (fun i => F (S i)) k); [ring|lia|].
    intros i Hi n0. apply H; lia.
Qed.

Lemma qsum_map_nth (l : list Qc) : qsum l = bigsum (length l) (fun i => nth i l 0%Qc).
Proof.
  induction l as [|x l IH]; [reflexivity|].
  change (length (x :: l)) with (S (length l)). rewrite bigsum_S. cbn. rewrite IH; reflexivity.
Qed.

Lemma qprod_pos l : Forall (fun x => 0 < x)%Qc l -> (0 < qprod l)%Qc.
Proof. induction 1; cbn; [reflexivity|]. apply Qcmult_pos; assumption. Qed.

Lemma qprod_nonneg l : Forall (fun x => 0 <= x)%Qc l -> (0 <= qprod l)%Qc.
Proof. induction 1; cbn; [discriminate|]. apply Qcmult_nonneg; assumption. Qed.
