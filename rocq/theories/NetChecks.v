(** Decision procedures for the contract, used for concrete histories. *)
From Verif Require Import Base BaseFacts NDArray Node Network NetSpec NetFacts NetOps NetView.

Definition withinb (w : world) (o : op) : bool :=
  match o with
  | AddNode i => match nth_error (whp w) i with
                 | Some n => match nkind n, nporder n with KDiscrete, [] => true | _, _ => false end
                 | None => true
                 end
  | AddEdge u v => negb (existsb (edge_eqb (u, v)) (gedges (wnet w)))
  | ChangeName r new => match r with
                        | ByName s => String.eqb s new || negb (mem new (dkeys (lookup (wnet w))))
                        | ByNode _ => false
                        end
  | SetCpd _ _ a => Nat.eqb (length (data a)) (prodn (shape a))
  | _ => true
  end.

Lemma withinb_ok w o : withinb w o = true -> within w o.
Proof.
  destruct o as [k nm vs|i|u v|u v|r|r vs|r new| |i int a|i x p pv|nm mt|i mt]; cbn; try (intros _; exact Logic.I).
  - intros H n Hn. rewrite Hn in H. destruct (nkind n); try discriminate. destruct (nporder n); [auto|discriminate].
  - intros H. apply negb_true_iff in H. apply edges_boolF in H. exact H.
  - destruct r as [s|]; [|discriminate]. intros H. split; [eexists; reflexivity|]. cbn. apply orb_true_iff in H. destruct H as [H|H].
    + left. apply String.eqb_eq, H.
    + right. apply negb_true_iff in H. apply mem_nIn, H.
  - intros H. apply Nat.eqb_eq, H.
Qed.

Fixpoint all_withinb (w : world) (os : list op) : bool :=
  match os with [] => true | o :: os' => withinb w o && all_withinb (fst (exec w o)) os' end.

Lemma all_withinb_ok os : forall w, all_withinb w os = true -> all_within w os.
Proof.
  induction os as [|o os IH]; intros w H; [exact Logic.I|]. cbn in *. apply andb_true_iff in H. destruct H as [A B].
  split; [apply withinb_ok, A|apply IH, B].
Qed.

Fixpoint nodup_sb (l : list string) : bool :=
  match l with [] => true | x :: l' => negb (mem x l') && nodup_sb l' end.

Lemma nodup_sb_ok l : nodup_sb l = true -> NoDup l.
Proof.
  induction l as [|x l IH]; intros H; constructor; cbn in H; apply andb_true_iff in H; destruct H as [A B].
  - apply negb_true_iff in A. apply mem_nIn, A.
  - apply IH, B.
Qed.

Definition tidyb (w : world) : bool :=
  forallb (fun p => match nth_error (whp w) (snd p) with
                    | Some n => match nvalues n with [] => false | _ => nodup_sb (nvalues n) end
                    | None => true end) (lookup (wnet w)) &&
  forallb (fun e => negb (String.eqb (fst e) (snd e))) (gedges (wnet w)).

Lemma tidyb_ok w : tidyb w = true -> tidy w.
Proof.
  unfold tidyb. intros H. apply andb_true_iff in H. destruct H as [A B]. rewrite forallb_forall in A, B. constructor.
  - intros v i n [D Hn]. apply dget_In in D. specialize (A (v, i) D). cbn in A. rewrite Hn in A.
    destruct (nvalues n) as [|y l] eqn:E; [discriminate|]. split; [discriminate|]. apply nodup_sb_ok, A.
  - intros v E. specialize (B (v, v) E). cbn in B. rewrite eqb_refl_s in B. discriminate.
Qed.
