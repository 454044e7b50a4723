(** Structural edits write nothing but the objects concerned, in any state. *)
From Verif Require Import Base BaseFacts NDArray NDArrayFacts Node Network NetSpec NetFacts.

Definition frame1 (c : call) (w : world) (i : oid) : Prop :=
  wnet (fst c) = wnet w /\ forall j, j <> i -> nth_error (whp (fst c)) j = nth_error (whp w) j.

Lemma list_set_other {A} i (x : A) l j : j <> i -> nth_error (list_set i x l) j = nth_error l j.
Proof. intros N. rewrite nth_error_list_set. destruct (Nat.eq_dec j i); [contradiction|reflexivity]. Qed.

Lemma refresh_other h i n j : j <> i -> nth_error (fst (refresh h i n)) j = nth_error h j.
Proof.
  intros N. unfold refresh. destruct (update_dimensions _ _); cbn; rewrite ?list_set_other by exact N; reflexivity.
Qed.

Lemma add_parent_other h c p j : j <> c -> nth_error (fst (add_parent h c p)) j = nth_error h j.
Proof.
  intros N. unfold add_parent. destruct (nth_error h c) as [n|]; [|reflexivity]. destruct (nth_error h p) as [m|]; [|reflexivity].
  destruct (nkind n); try reflexivity; apply refresh_other, N.
Qed.

Lemma remove_parent_other h c p j : j <> c -> nth_error (fst (remove_parent h c p)) j = nth_error h j.
Proof.
  intros N. unfold remove_parent. destruct (nth_error h c) as [n|]; [|reflexivity]. destruct (nth_error h p) as [m|]; [|reflexivity].
  destruct (nkind n); try reflexivity. destruct (dmem _ _); [|reflexivity].
  destruct (mem _ _); [apply refresh_other, N|apply list_set_other, N].
Qed.

Lemma set_values_other h i vs j : j <> i -> nth_error (fst (set_values h i vs)) j = nth_error h j.
Proof.
  intros N. unfold set_values. destruct (nth_error h i) as [n|]; [|reflexivity]. destruct (nkind n); try reflexivity. apply refresh_other, N.
Qed.

Lemma on_heap_frame w r i : (forall j, j <> i -> nth_error (fst r) j = nth_error (whp w) j) -> frame1 (on_heap w r) w i.
Proof. intros H. split; [reflexivity|exact H]. Qed.

Lemma for_keys_frame f : (forall w i, frame1 (f w i) w i) -> forall l w j,
  (forall v, In v l -> dget v (ggraph (wnet w)) <> Some j) ->
  wnet (fst (for_keys f l w)) = wnet w /\ nth_error (whp (fst (for_keys f l w))) j = nth_error (whp w) j.
Proof.
  intros F. induction l as [|v l IH]; intros w j H; [split; reflexivity|]. cbn [for_keys].
  destruct (dget v (ggraph (wnet w))) as [i|] eqn:D; [|split; reflexivity].
  destruct (F w i) as [F1 F2]. destruct (f w i) as [w1 [[]|e]]; cbn [fst andthen] in *.
  - destruct (IH w1 j) as [A B].
    + intros u Iu. rewrite F1. apply H. right; exact Iu.
    + rewrite A, B, F1. split; [reflexivity|]. apply F2. intros ->. apply (H v); [left; reflexivity|exact D].
  - split; [exact F1|]. apply F2. intros ->. apply (H v); [left; reflexivity|exact D].
Qed.

Lemma succs_edge w v x : In x (succs (wnet w) v) -> edge w v x.
Proof.
  unfold succs. rewrite in_map_iff. intros ((a & b) & E & I). cbn in E. subst b. apply filter_In in I. destruct I as [I E].
  cbn in E. apply String.eqb_eq in E. subst a. exact I.
Qed.

Theorem edits_frame w o j : edit o -> ~ touched w o j ->
  nth_error (whp (fst (exec w o))) j = nth_error (whp w) j.
Proof.
  intros E T. destruct o as [k nm vs|i|u v|u v|r|r vs|r new| |i int a|i x p pv|nm mt|i mt]; try contradiction; cbn [exec touched] in *.
  - unfold add_edge. destruct (_ && _); [|reflexivity]. destruct (dget u _) as [p|]; [|reflexivity].
    destruct (dget v _) as [c|] eqn:D; [|reflexivity]. cbn. apply add_parent_other. intros ->. exact (T eq_refl).
  - unfold remove_edge. destruct (_ && _); [|reflexivity]. destruct (dget v _) as [c|] eqn:D; [|reflexivity].
    destruct (dget u _) as [p|]; [|reflexivity].
    assert (X : nth_error (fst (remove_parent (whp w) c p)) j = nth_error (whp w) j).
    { apply remove_parent_other. intros ->. exact (T eq_refl). }
    unfold on_heap. destruct (remove_parent (whp w) c p) as [h1 [[]|e]]; cbn in *; [|exact X].
    destruct (existsb _ _); exact X.
  - unfold remove_node. set (v := ref_name (whp w) r) in *. destruct (dmem v _); [|reflexivity].
    match goal with |- context [for_keys ?f ?l ?w1] => destruct (fun F => for_keys_frame f F l w1 j) as [A B] end.
    + intros w0 i. destruct (dget v (lookup (wnet w0))) as [p|]; [|split; reflexivity].
      apply on_heap_frame. intros k N. apply remove_parent_other, N.
    + intros c Ic D. apply T. exists c. split; [apply succs_edge, Ic|exact D].
    + match goal with |- context [for_keys ?f ?l w] => destruct (for_keys f l w) as [w1 [[]|e]] end; cbn [fst andthen] in *; [|exact B].
      destruct (dmem v _); exact B.
  - unfold change_node_values. set (v := ref_name (whp w) r) in *. destruct (dget v (lookup (wnet w))) as [i|] eqn:D; [|reflexivity].
    assert (N : j <> i) by (intros ->; apply T; left; reflexivity).
    assert (X := set_values_other (whp w) i vs j N). unfold on_heap at 1.
    destruct (set_values (whp w) i vs) as [h1 [[]|e]]; cbn [fst snd andthen] in *; [|exact X].
    cbn [wnet with_heap]. destruct (negb _); [exact X|].
    match goal with |- context [for_keys ?f ?l ?w1] => destruct (fun F => for_keys_frame f F l w1 j) as [A B] end.
    + intros w0 k. destruct (nth_error (whp w0) k) as [n|]; [|split; reflexivity].
      apply on_heap_frame. intros k' N'. apply refresh_other, N'.
    + intros c Ic Dc. apply T. right. exists c. split; [apply succs_edge, Ic|exact Dc].
    + etransitivity; [exact B|exact X].
Qed.
