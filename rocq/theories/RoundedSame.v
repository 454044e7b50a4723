(** Without rounding, the operations of Rounded.v and RoundedTree.v are those of Factor.v. *)
From Verif Require Import Base BaseFacts NDArray NDArrayFacts Factor Rounded RoundedProof RoundedTree.

Section Same.
Context {RD : Rounding} {AD : Adding} {SO : SetOrder}.
Hypothesis NR : forall x, rnd x = x.

Lemma zipb_same op a c : (forall x y, op x y = (x * y)%Qc) -> zipb op a c = zipb Qcmult a c.
Proof. intros H. unfold zipb. destruct (bshape _ _); cbn [rbind]; [|reflexivity]. f_equal. apply tabulate_ext. intros ix _. apply H. Qed.

Lemma rmul_same f g : rmul f g = fmul f g.
Proof.
  unfold rmul, fmul, fcombine. set (op := fun x y => rnd (x * y)%Qc). assert (H : forall x y, op x y = (x * y)%Qc) by (intros; apply NR).
  destruct (vorder f); [rewrite zipb_same by exact H; reflexivity|]. destruct (vorder g); [rewrite zipb_same by exact H; reflexivity|].
  destruct (add_vals _ _ _); cbn [rbind]; [|reflexivity]. destruct (mapM _ _); cbn [rbind]; [|reflexivity]. destruct (transpose _ _); cbn [rbind]; [|reflexivity].
  rewrite zipb_same by exact H. reflexivity.
Qed.

Lemma radd_same l t : radd_tree t l = qsum (map (fun i => nth i l 0%Qc) (leaves t)).
Proof. induction t as [i|a IHa c IHc]; cbn [radd_tree leaves map]; [cbn; ring|]. rewrite NR, IHa, IHc, map_app, qsum_app. reflexivity. Qed.

Lemma rsum_same tag l : rsum tag l = qsum l.
Proof.
  destruct l as [|x l]; [reflexivity|]. unfold rsum. rewrite radd_same. set (xs := x :: l).
  rewrite (qsum_perm _ (map (fun i => nth i xs 0%Qc) (seq 0 (length xs)))) by (apply Permutation_map, plan_ok; cbn; lia).
  f_equal. apply nth_ext with (d := 0%Qc) (d' := 0%Qc); rewrite map_length, seq_length; [reflexivity|]. intros i Hi.
  rewrite (nth_indep _ 0%Qc (nth 0 xs 0%Qc)) by (rewrite map_length, seq_length; exact Hi). rewrite (map_nth (fun i => nth i xs 0%Qc)), seq_nth by exact Hi. reflexivity.
Qed.

Lemma rmarg_same f v : rmarg f v = marginalize1 f v.
Proof.
  unfold rmarg, marginalize1. destruct (py_index v (vorder f)); cbn [rbind]; [|reflexivity]. destruct (dmem v (fvals f)); [|reflexivity].
  f_equal. f_equal. apply tabulate_ext. intros ix _. rewrite rsum_same. reflexivity.
Qed.

Lemma rnormalize_same f : rnormalize f = normalize f.
Proof.
  unfold rnormalize, normalize. rewrite rsum_same. unfold asum. cbv zeta. destruct (qltb _ _); [|reflexivity]. f_equal. unfold amap. f_equal. apply map_ext. intros x. apply NR.
Qed.

Lemma rinvert_same f : rinvert f = finvert f.
Proof.
  unfold rinvert, finvert. destruct (vorder f).
  - destruct (existsb _ _); [reflexivity|]. f_equal. f_equal. unfold amap. f_equal. apply map_ext. intros x. apply NR.
  - f_equal. f_equal. unfold amap. f_equal. apply map_ext. intros x. destruct (qeqb x 0%Qc); [reflexivity|apply NR].
Qed.
End Same.
