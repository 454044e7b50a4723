(** A concrete set iteration order, for evaluating examples. *)
From Verif Require Import Base BaseFacts.

(** Iterates in the order of the first argument. *)
Definition listing_sdiff (a b : list string) : list string :=
  nodup string_dec (filter (fun x => negb (mem x b)) a).

Lemma listing_sdiff_spec a b x : In x (listing_sdiff a b) <-> In x a /\ ~ In x b.
Proof. unfold listing_sdiff. rewrite nodup_In, filter_In, negb_true_iff, mem_nIn. tauto. Qed.

Definition listing_order : SetOrder :=
  {| sdiff := listing_sdiff;
     sdiff_nodup := fun a b => NoDup_nodup string_dec _;
     sdiff_spec := listing_sdiff_spec |}.

(** Iterates backwards: another hash seed. *)
Definition reversed_order : SetOrder.
Proof.
  refine {| sdiff := fun a b => rev (listing_sdiff a b) |}.
  - intros a b. apply NoDup_rev, NoDup_nodup.
  - intros a b x. rewrite <- in_rev. apply listing_sdiff_spec.
Defined.

(** Comparing evaluated numbers (canonical rationals carry a proof). *)
Ltac qc := apply Qc_is_canon; vm_compute; reflexivity.

Fixpoint qlist_eqb (a b : list Qc) : bool :=
  match a, b with
  | [], [] => true
  | x :: a', y :: b' => qeqb x y && qlist_eqb a' b'
  | _, _ => false
  end.

Lemma qlist_eqb_eq a b : qlist_eqb a b = true -> a = b.
Proof.
  revert b; induction a as [|x a IH]; intros [|y b]; cbn; try discriminate; [reflexivity|].
  rewrite andb_true_iff, qeqb_true. intros [-> H]. f_equal; apply IH, H.
Qed.

Ltac qlist := apply qlist_eqb_eq; vm_compute; reflexivity.
