(** Counting samples in rounded arithmetic. *)
From Coq Require Import Field.
From Verif Require Import Base NDArray Factor Exact Spec BaseFacts NDArrayFacts FactorProofs SpecFacts Sampling LawCount
  Rounded RoundedSpec RoundedProof RoundedSample RoundedSampleSpec.

Section Count.
Context {RD : Rounding}.

Lemma nth_qnat i ks : nth i (map qnat ks) 0%Qc = qnat (nth i ks 0).
Proof. change 0%Qc with (qnat 0). apply map_nth. Qed.

Lemma nth_le_sum i ks : nth i ks 0 <= list_sum ks.
Proof. revert i. induction ks as [|k ks IH]; intros [|i]; cbn [nth list_sum fold_right]; try lia. specialize (IH i). unfold list_sum in IH. lia. Qed.

Lemma set_qnat i x ks : list_set i (qnat x) (map qnat ks) = map qnat (list_set i x ks).
Proof. revert i. induction ks as [|k ks IH]; intros [|i]; cbn [map list_set]; try reflexivity. now rewrite IH. Qed.

Lemma set_sum i ks : list_sum (list_set i (S (nth i ks 0)) ks) <= S (list_sum ks).
Proof. revert i. induction ks as [|k ks IH]; intros [|i]; cbn [list_set nth list_sum fold_right]; try lia. specialize (IH i). unfold list_sum in IH. lia. Qed.

Definition count_one (up : Qc -> Qc) (vv : dict (list string)) (a : ndarray) (s : dict string) : res ndarray :=
  let* idx := mapM (fun p => let* x := dget_err KeyError (fst p) s in py_index x (snd p)) vv in
  Ok (aset a idx (up (aget a idx + 1))%Qc).

Lemma same_counts n vv ss : counts_exactly n -> forall a ks, data a = map qnat ks -> list_sum ks + length ss <= n ->
  foldM (count_one rnd vv) ss a = foldM (count_one (fun x => x) vv) ss a /\
  forall c, foldM (count_one (fun x => x) vv) ss a = Ok c -> exists js, data c = map qnat js /\ list_sum js <= n.
Proof.
  intros CE. induction ss as [|s ss IH]; intros a ks E L; cbn [foldM length] in *.
  - split; [reflexivity|]. intros c H. inversion H; subst. exists ks. split; [exact E|lia].
  - unfold count_one at 1 3 5. destruct (mapM _ vv) as [idx|]; cbn [rbind]; [|split; [reflexivity|discriminate]].
    set (i := ravel (shape a) idx). assert (G : (aget a idx + 1)%Qc = qnat (S (nth i ks 0))).
    { unfold aget. fold i. rewrite E, nth_qnat, qnat_S. ring. }
    rewrite G. assert (R : rnd (qnat (S (nth i ks 0))) = qnat (S (nth i ks 0))) by (apply CE; pose proof (nth_le_sum i ks); lia). rewrite R.
    apply (IH _ (list_set i (S (nth i ks 0)) ks)).
    + unfold aset. cbn [data]. fold i. rewrite E. apply set_qnat.
    + pose proof (set_sum i ks). lia.
Qed.

Lemma zeros_qnat sh : exists ks, data (np_zeros sh) = map qnat ks /\ list_sum ks = 0.
Proof.
  exists (map (fun _ => 0) (indices sh)). unfold np_zeros, np_full, tabulate. cbn [data]. split; [now rewrite map_map|].
  induction (indices sh) as [|x l IH]; [reflexivity|exact IH].
Qed.

Context {AD : Adding}.

Lemma tree_counts n ks : counts_exactly n -> forall t, list_sum (map (fun i => nth i ks 0) (leaves t)) <= n ->
  radd_tree t (map qnat ks) = qnat (list_sum (map (fun i => nth i ks 0) (leaves t))).
Proof.
  intros CE. induction t as [i|l IHl r IHr]; intros H; cbn [leaves radd_tree map list_sum fold_right] in *.
  - rewrite Nat.add_0_r. apply nth_qnat.
  - rewrite map_app, list_sum_app in *. rewrite IHl, IHr by lia. rewrite <- qnat_add. now apply CE.
Qed.

Lemma sum_counts n tag ks : counts_exactly n -> list_sum ks <= n -> rsum tag (map qnat ks) = qsum (map qnat ks).
Proof.
  intros CE L. assert (S1 : qsum (map qnat ks) = qnat (list_sum ks)).
  { clear. induction ks as [|k ks IH]; [reflexivity|]. cbn [map qsum list_sum fold_right]. rewrite IH. now rewrite <- qnat_add. }
  rewrite S1. unfold rsum. destruct ks as [|k ks]; [reflexivity|]. cbn [map]. change (qnat k :: map qnat ks) with (map qnat (k :: ks)). set (l := k :: ks) in *.
  assert (P := plan_ok (length (map qnat l)) tag ltac:(cbn; lia)). rewrite map_length in *.
  assert (Q : list_sum (map (fun i => nth i l 0) (leaves (plan (length l) tag))) = list_sum l).
  { assert (X : forall a c, Permutation a c -> list_sum a = list_sum c) by (intros a c H; induction H; cbn [list_sum fold_right] in *; unfold list_sum in *; lia).
    rewrite (X _ _ (Permutation_map (fun i => nth i l 0) P)). clear. f_equal. apply (nth_ext _ _ 0 0); [now rewrite map_length, seq_length|]. rewrite map_length, seq_length.
    intros i I. rewrite (nth_indep _ 0 (nth 0 l 0)) by now rewrite map_length, seq_length. rewrite (map_nth (fun i => nth i l 0) (seq 0 (length l)) 0 i), seq_nth by exact I. reflexivity. }
  rewrite (tree_counts n) by (auto; lia). now rewrite Q.
Qed.

(** The counts are exact; the frequencies are rounded once. *)
Lemma rfrom_samples_eq ss vv : counts_exactly (length ss) ->
  rfrom_samples ss vv = let* f := from_samples ss vv in Ok (mkF (amap rnd (pot f)) (vorder f) (fvals f)).
Proof.
  intros CE. unfold rfrom_samples, from_samples. cbv zeta. set (sh := map (fun p => length (snd p)) vv).
  destruct (zeros_qnat sh) as (ks & Z & Z0). destruct (same_counts (length ss) vv ss CE (np_zeros sh) ks Z ltac:(lia)) as [A B].
  change (foldM (fun a s => let* idx := mapM (fun p => let* x := dget_err KeyError (fst p) s in py_index x (snd p)) vv in Ok (aset a idx (rnd (aget a idx + 1))%Qc)) ss (np_zeros sh))
    with (foldM (count_one rnd vv) ss (np_zeros sh)).
  change (foldM (fun a s => let* idx := mapM (fun p => let* x := dget_err KeyError (fst p) s in py_index x (snd p)) vv in Ok (aset a idx (aget a idx + 1)%Qc)) ss (np_zeros sh))
    with (foldM (count_one (fun x => x) vv) ss (np_zeros sh)).
  rewrite A. clear A. destruct (foldM (count_one (fun x => x) vv) ss (np_zeros sh)) as [c|] eqn:F; cbn [rbind]; [|reflexivity]. destruct (B c eq_refl) as (js & J & JL).
  assert (T : rsum [] (data c) = asum c) by (unfold asum; rewrite J; now apply (sum_counts (length ss))). rewrite T.
  destruct (qeqb (asum c) 0); cbn [rbind]; [reflexivity|]. cbn [pot vorder fvals]. unfold amap. cbn [shape data]. now rewrite map_map.
Qed.

Lemma potential_rnd f q : potential_at (mkF (amap rnd (pot f)) (vorder f) (fvals f)) q = rnd (potential_at f q).
Proof. unfold potential_at, aget, amap. cbn [pot vorder fvals shape data]. rewrite <- rnd_zero at 1. apply map_nth. Qed.
End Count.
