(** Decision procedures for the hypotheses of the file theorems. *)
From Coq Require Import Ascii.
From Verif Require Import Base BaseFacts NDArray Node Network NetSpec NetFacts NetInv Dynamic Xml IO IOText IOSpec IOProof Files FilesSpec FilesProof.

Definition legal_opt (x : option string) : bool := match x with Some s => legal_text s | None => true end.
Lemma legal_opt_ok x : legal_opt x = true -> printable_or_none x.
Proof. destruct x; [apply printable_legal|intros _; exact I]. Qed.

Lemma forallb_Forall {A} (P : A -> Prop) (b : A -> bool) l : (forall x, b x = true -> P x) -> forallb b l = true -> Forall P l.
Proof. intros H B. apply Forall_forall. intros x Hx. rewrite forallb_forall in B. apply H, B, Hx. Qed.

Definition each_node (b : string -> node -> bool) (w : world) : bool :=
  forallb (fun p => match nth_error (whp w) (snd p) with Some n => b (fst p) n | None => true end) (lookup (wnet w)).
Lemma each_node_ok b w : each_node b w = true -> forall v i n, holds w v i n -> b v n = true.
Proof.
  unfold each_node. rewrite forallb_forall. intros B v i n [D H]. specialize (B (v, i) (dget_In _ _ _ D)). cbn in B. rewrite H in B. exact B.
Qed.

Definition printable_netb (w : world) : bool :=
  legal_opt (bname (wnet w)) && forallb legal_opt (bmeta (wnet w)) &&
  each_node (fun v n => legal_text v && forallb legal_text (nvalues n) && forallb legal_opt (nmeta n)) w.
Lemma printable_netb_ok meta w : printable_netb w = true -> printable_net meta w.
Proof.
  unfold printable_netb. rewrite !andb_true_iff. intros [[A B] D]. constructor.
  - apply legal_opt_ok, A.
  - intros _. exact (forallb_Forall _ _ _ legal_opt_ok B).
  - intros v i n H. apply (each_node_ok _ w D) in H. rewrite !andb_true_iff in H. destruct H as [[H1 H2] H3].
    split; [apply printable_legal, H1|]. split; [|intros _; exact (forallb_Forall _ _ _ legal_opt_ok H3)].
    apply (forallb_Forall _ legal_text); [|exact H2]. intros x. apply printable_legal.
Qed.

Definition nonempty (s : string) : bool := negb (String.eqb s "").
Lemma nonempty_ok s : nonempty s = true -> s <> ""%string.
Proof. unfold nonempty. rewrite negb_true_iff. apply String.eqb_neq. Qed.

Definition filledb (w : world) : bool :=
  each_node (fun v n => nonempty v && negb (Nat.eqb (length (nvalues n)) 0) && forallb nonempty (nvalues n)) w.
Lemma filledb_ok w : filledb w = true -> filled w.
Proof.
  intros B v i n H. apply (each_node_ok _ w B) in H. rewrite !andb_true_iff, negb_true_iff in H. destruct H as [[H1 H2] H3].
  split; [apply nonempty_ok, H1|]. split; [intros E; rewrite E in H2; discriminate|]. exact (forallb_Forall _ _ _ nonempty_ok H3).
Qed.

Definition opt_full (x : option string) : bool := match x with Some s => nonempty s | None => true end.
Lemma opts_full l : forallb opt_full l = true -> ~ In (Some ""%string) l.
Proof. rewrite forallb_forall. intros B X. apply B in X. discriminate. Qed.
Definition namedb (w : world) : bool :=
  opt_full (bname (wnet w)) && forallb opt_full (bmeta (wnet w)) && each_node (fun _ n => forallb opt_full (nmeta n)) w.
Lemma namedb_ok w : namedb w = true -> named_net w.
Proof.
  unfold namedb. rewrite !andb_true_iff. intros [[A B] D]. split; [|split].
  - intros E. rewrite E in A. discriminate.
  - apply opts_full, B.
  - intros v i n H. apply (each_node_ok _ w D) in H. apply opts_full, H.
Qed.

Definition cleanb (c : string) : bool :=
  nonempty c && negb (String.eqb c ".") && negb (String.eqb c "..") && negb (existsb (Ascii.eqb slash) (list_ascii_of_string c)).
Lemma cleanb_ok c : cleanb c = true -> clean c.
Proof.
  unfold cleanb. rewrite !andb_true_iff, !negb_true_iff. intros [[[A B] D] E]. split; [apply nonempty_ok, A|].
  split; [apply String.eqb_neq, B|]. split; [apply String.eqb_neq, D|]. intros X.
  assert (Y : existsb (Ascii.eqb slash) (list_ascii_of_string c) = true) by (apply existsb_exists; exists slash; split; [exact X|apply Ascii.eqb_refl]).
  congruence.
Qed.

Definition good_fsb (f : fs) : bool :=
  forallb (fun l => is_dir f (removelast l) && forallb cleanb l) (fdirs f) && is_dir f (fcwd f).
Lemma good_fsb_ok f : good_fsb f = true -> good_fs f.
Proof.
  unfold good_fsb. rewrite andb_true_iff, forallb_forall. intros [A B].
  assert (D : forall l, is_dir f l = true -> l = [] \/ In l (fdirs f)).
  { intros [|c l] H; [left; reflexivity|right]. cbn in H. apply existsb_exists in H. destruct H as (k & Hk & E). apply loc_eq_true in E. rewrite E. exact Hk. }
  constructor.
  - intros l c H. destruct (D _ H) as [E|Hl]; [destruct l; discriminate|]. apply A in Hl. rewrite removelast_last in Hl.
    apply andb_true_iff in Hl. apply Hl.
  - intros l H. destruct (D _ H) as [->|Hl]; [constructor|]. apply A in Hl. apply andb_true_iff in Hl.
    apply (forallb_Forall _ cleanb); [apply cleanb_ok|apply Hl].
  - exact B.
Qed.
