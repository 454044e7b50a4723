(** Decision procedures for the contract of decision networks, and concrete
    iteration orders. *)
From Verif Require Import Base BaseFacts NDArray NDArrayFacts Factor Exact Spec SpecFacts Checks Node Network NetSpec NetFacts NetChecks MCSpec MCChecks
  Decision DecSpec DecInv DecView.

Definition isb_utility (n : node) : bool := match nkind n with KUtility => true | _ => false end.

Definition dwithinb (w : dworld) (o : dop) : bool :=
  match o with
  | DAdd i => match nth_error (dheap w) i with
              | Some n => match nkind n with KBase => false | _ => true end &&
                          negb (mem (nname n) (dkeys (dlook w))) && match nporder n with [] => true | _ => false end
              | None => true
              end
  | DEdge u v => match dget v (dlook w), dget u (dlook w) with
                 | Some i, Some p => match nth_error (dheap w) i, nth_error (dheap w) p with
                                     | Some n, Some m => negb (String.eqb u v) && negb (mem u (nporder n)) && negb (isb_utility m)
                                     | _, _ => true
                                     end
                 | _, _ => true
                 end
  | DCpd _ _ a | DUtilities _ _ a => Nat.eqb (length (data a)) (prodn (shape a))
  | _ => true
  end.

Lemma dwithinb_ok w o : dwithinb w o = true -> dwithin w o.
Proof.
  destruct o; cbn; try (intros _; exact Logic.I).
  - intros H n Hn. rewrite Hn in H. apply andb_prop in H as [H C]. apply andb_prop in H as [A B].
    split; [destruct (nkind n); congruence|]. right. split; [apply mem_nIn, negb_true_iff, B|]. destruct (nporder n); [reflexivity|discriminate].
  - intros H i n p m [D1 H1] [D2 H2]. rewrite D1, D2, H1, H2 in H. apply andb_prop in H as [H C]. apply andb_prop in H as [A B].
    apply negb_true_iff in A, B, C. split; [|split].
    + intros ->. rewrite String.eqb_refl in A. discriminate.
    + apply mem_nIn, B.
    + unfold isb_utility in C. destruct (nkind m); congruence.
  - intros H. apply Nat.eqb_eq, H.
  - intros H. apply Nat.eqb_eq, H.
Qed.

Fixpoint dall_withinb (w : dworld) (os : list dop) : bool :=
  match os with [] => true | o :: os' => dwithinb w o && dall_withinb (fst (dexec w o)) os' end.

Lemma dreached_run os : forall w, dreached w -> dall_withinb w os = true -> dreached (drun w os).
Proof.
  induction os as [|o os IH]; intros w R H; [exact R|]. cbn in *. apply andb_prop in H as [A B].
  apply IH; [|exact B]. apply dreached_call; [exact R|apply dwithinb_ok, A].
Qed.

Definition dtidyb (w : dworld) : bool :=
  forallb (fun p => match nth_error (dheap w) (snd p) with
                    | Some n => isb_utility n || match nvalues n with [] => false | _ => nodup_sb (nvalues n) end
                    | None => true end) (dlook w).

Lemma dtidyb_ok w : dtidyb w = true -> dtidy w.
Proof.
  unfold dtidyb. intros A v i n [D Hn] K. rewrite forallb_forall in A. apply dget_In in D. specialize (A (v, i) D). cbn in A. rewrite Hn in A.
  unfold isb_utility in A. destruct (nkind n); try congruence; cbn in A;
    (destruct (nvalues n) as [|y l] eqn:E; [discriminate|]; split; [discriminate|]; apply nodup_sb_ok, A).
Qed.

Definition legal_decisionsb (w : dworld) (ds : dict string) : bool :=
  nodup_sb (dkeys ds) &&
  forallb (fun p => match dget (fst p) (dlook w) with
                    | Some i => match nth_error (dheap w) i with
                                | Some n => match nkind n with KDecision => mem (snd p) (nvalues n) | _ => false end
                                | None => false end
                    | None => false end) ds.

Lemma legal_decisionsb_ok w ds : legal_decisionsb w ds = true -> legal_decisions w ds.
Proof.
  intros H. apply andb_prop in H as [A B]. split; [apply nodup_sb_ok, A|]. intros v d Hd. rewrite forallb_forall in B. specialize (B _ Hd). cbn in B.
  destruct (dget v (dlook w)) as [i|] eqn:D; [|discriminate]. destruct (nth_error (dheap w) i) as [n|] eqn:Hn; [|discriminate].
  destruct (nkind n) eqn:K; try discriminate. exists i, n. repeat split; auto. apply mem_In, B.
Qed.

Definition nonneg_tablesb (l : list dnode) : bool := forallb (fun n => forallb (qleb 0%Qc) (data (dn_cpd n))) l.
Lemma nonneg_tablesb_ok l : nonneg_tablesb l = true -> nonneg_tables l.
Proof.
  intros H n Hn. unfold nonneg_tablesb in H. rewrite forallb_forall in H. specialize (H n Hn). apply Forall_forall. intros x Hx.
  rewrite forallb_forall in H. specialize (H x Hx). apply qleb_true, H.
Qed.

Lemma stochastic_tablesb_ok w ds : dinv w -> dtidy w -> forallb columnsb (open_nodes w ds) = true -> stochastic_tables (open_nodes w ds).
Proof.
  intros I T H n s Hn. rewrite forallb_forall in H. apply (columnsb_ok (dbn w) n s (dbn_wf w I T)); [|apply H, Hn].
  apply filter_In in Hn. apply Hn.
Qed.

(** Two iteration orders for sets of factors. *)
Definition forwards : BagOrder := {| bag := fun _ l => l; bag_perm := fun _ l => Permutation_refl l |}.
Definition backwards : BagOrder := {| bag := fun _ l => rev l; bag_perm := fun _ l => Permutation_sym (Permutation_rev l) |}.
