(** Decision procedures for the hypotheses, to check concrete examples. *)
From Verif Require Import Base BaseFacts NDArray Factor Exact Spec SpecFacts FactorSpec FactorProofs Order OrderSpec.

Definition eqb_ls (a b : list string) : bool := if list_eq_dec string_dec a b then true else false.

Lemma eqb_ls_eq a b : eqb_ls a b = true -> a = b.
Proof. unfold eqb_ls. destruct (list_eq_dec _ a b); [auto|discriminate]. Qed.

Fixpoint permb (a b : list string) : bool :=
  match a with
  | [] => match b with [] => true | _ => false end
  | x :: a' => mem x b && permb a' (remove1 x b)
  end.

Lemma permb_ok a b : permb a b = true -> Permutation a b.
Proof.
  revert b; induction a as [|x a IH]; intros b; cbn; [destruct b; [constructor|discriminate]|].
  rewrite andb_true_iff, mem_In. intros [H1 H2]. rewrite (remove1_perm x b H1). constructor. apply IH, H2.
Qed.

Definition wf_nodeb (b : bn) (n : dnode) : bool :=
  negb (eqb_ls (dn_values n) []) && nodup_s (dn_values n) &&
  nodup_s (dn_name n :: map fst (dn_parents n)) &&
  forallb (fun p => existsb (fun m => String.eqb (dn_name m) (fst p) && eqb_ls (dn_values m) (snd p)) (bnodes b))
          (dn_parents n) &&
  (if list_eq_dec Nat.eq_dec (shape (dn_cpd n)) (map (fun p => length (snd p)) ((dn_name n, dn_values n) :: dn_parents n))
   then true else false) &&
  Nat.eqb (length (data (dn_cpd n))) (prodn (shape (dn_cpd n))) &&
  permb (dn_pdict n) (map fst (dn_parents n)).

Definition wf_bnb (b : bn) : bool := nodup_s (bnames b) && forallb (wf_nodeb b) (bnodes b).

Lemma wf_bnb_ok b : wf_bnb b = true -> wf_bn b.
Proof.
  unfold wf_bnb. rewrite andb_true_iff, nodup_s_spec, forallb_forall. intros [ND H]. split; [exact ND|].
  intros n Hn. specialize (H n Hn). unfold wf_nodeb in H.
  rewrite !andb_true_iff, !nodup_s_spec, forallb_forall, Nat.eqb_eq in H.
  destruct H as ((((((H1 & H2) & H3) & H4) & H5) & H6) & H7).
  split; auto.
  - split; [|exact H2]. intros E. rewrite E in H1. discriminate.
  - intros p vals Hp. specialize (H4 _ Hp). apply existsb_exists in H4 as (m & Hm & E).
    apply andb_true_iff in E as [E1 E2]. apply String.eqb_eq in E1. apply eqb_ls_eq in E2. exists m. auto.
  - destruct (list_eq_dec _ _ _); [assumption|discriminate].
  - apply permb_ok, H7.
Qed.

Definition nonnegb (b : bn) : bool := forallb (fun n => forallb (qleb 0%Qc) (data (dn_cpd n))) (bnodes b).

Lemma nonnegb_ok b : nonnegb b = true -> nonneg_bn b.
Proof.
  unfold nonnegb. rewrite forallb_forall. intros H n Hn. specialize (H n Hn). rewrite forallb_forall in H.
  apply Forall_forall. intros x Hx. apply qleb_true, H, Hx.
Qed.

Definition ev_okb (b : bn) (ev : evidence) : bool :=
  nodup_s (dkeys ev) &&
  forallb (fun p => match snd p with
    | Hard x => mem x (values_of b (fst p))
    | Soft q => Nat.eqb (length q) (length (values_of b (fst p))) && forallb (qleb 0%Qc) q
    end) ev.

Lemma ev_okb_ok b ev : ev_okb b ev = true -> ev_ok b ev.
Proof.
  unfold ev_okb. rewrite andb_true_iff, nodup_s_spec, forallb_forall. intros [ND H]. split; [exact ND|].
  intros v e He _. specialize (H _ He). cbn in H. destruct e as [x|q].
  - apply mem_In, H.
  - apply andb_true_iff in H as [H1 H2]. apply Nat.eqb_eq in H1. split; [exact H1|].
    rewrite forallb_forall in H2. apply Forall_forall. intros x Hx. apply qleb_true, H2, Hx.
Qed.

Definition wf_graphb (b : bn) : bool :=
  permb (bnames b) (border b) && nodup_s (bnames b) &&
  forallb (fun e => mem (fst e) (bnames b) && mem (snd e) (bnames b) && negb (String.eqb (fst e) (snd e))) (bedges b).

Lemma wf_graphb_ok b : wf_graphb b = true -> wf_graph b.
Proof.
  unfold wf_graphb. rewrite !andb_true_iff, nodup_s_spec, forallb_forall. intros ((H1 & H2) & H3).
  split; [apply permb_ok, H1|exact H2|]. intros u v H. specialize (H3 _ H). cbn in H3.
  rewrite !andb_true_iff, !mem_In, negb_true_iff in H3. destruct H3 as ((A & B) & C).
  split; [exact A|]. split; [exact B|]. apply String.eqb_neq, C.
Qed.

Lemma inclb_ok a b : subset a b = true -> incl a b.
Proof. apply subset_spec. Qed.
