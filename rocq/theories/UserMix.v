(** A random choice among two transition models. *)
From Coq Require Import Field QArith.
From Verif Require Import Base NDArray Factor Exact Spec BaseFacts FactorProofs Sampling MCSpec MCFacts LawSpec LawCount LawKernel UserSampling UserSpec UserProof.
Local Open Scope nat_scope.

Lemma Qcmult_cancel_r a d z : z <> 0%Qc -> (a * z = d * z)%Qc -> a = d.
Proof. intros Z E. rewrite <- (Qcmult_1_r a), <- (Qcmult_1_r d), <- (Qcmult_inv_r z Z), !Qcmult_assoc, E. reflexivity. Qed.

Section Mix.
Variables (N c : nat) (pick : Qc -> nat -> bool) (s s' : rng -> move).
Hypothesis N0 : 0 < N.
Hypothesis DO : draws_only c s.
Hypothesis DO' : draws_only c s'.
Let f := chosen pick s s'.

Lemma mix_draws : draws_only (S c) f.
Proof.
  intros g g' st k k' H. unfold f, chosen. cbn [fst snd]. destruct (H 0 (Nat.lt_0_succ c)) as [U C]. rewrite !Nat.add_0_r in U, C. rewrite U, C.
  assert (H' : forall i, i < c -> unif g (S k + i) = unif g' (S k' + i) /\ choose g (S k + i) = choose g' (S k' + i)).
  { intros i I. rewrite !Nat.add_succ_comm. apply H. lia. }
  destruct (pick _ _).
  - pose proof (DO g g' st (S k) (S k') H') as A. destruct (s g (st, S k)) as [[x i]|e], (s g' (st, S k')) as [[y j]|e']; try exact A.
    destruct A as (-> & -> & ->). repeat split; lia.
  - pose proof (DO' g g' st (S k) (S k') H') as A. destruct (s' g (st, S k)) as [[x i]|e], (s' g' (st, S k')) as [[y j]|e']; try exact A.
    destruct A as (-> & -> & ->). repeat split; lia.
Qed.

Lemma mix_minds b ev g : minds b ev (s g) /\ never_stops b ev (s g) -> minds b ev (s' g) /\ never_stops b ev (s' g) -> minds b ev (f g) /\ never_stops b ev (f g).
Proof.
  intros [M NS] [M' NS']. split.
  - intros st k st' k' C K E. unfold f, chosen in E. destruct (pick _ _); [exact (M _ _ _ _ C K E)|exact (M' _ _ _ _ C K E)].
  - intros st k e C K E. unfold f, chosen in E. destruct (pick _ _); [exact (NS _ _ _ C K E)|exact (NS' _ _ _ C K E)].
Qed.

Lemma mix_later (t : rng -> move) h x d l : draws_only c t -> worth h (t (gen (d :: l)) (x, 1)) = worth h (t (gen l) (x, 0)).
Proof.
  intros D. pose proof (D (gen (d :: l)) (gen l) x 1 0 (fun i _ => conj eq_refl eq_refl)) as A.
  destruct (t (gen (d :: l)) (x, 1)) as [[y i]|e], (t (gen l) (x, 0)) as [[z j]|e']; cbn [worth]; try contradiction; [|reflexivity]. now destruct A as (-> & _).
Qed.

Lemma mix_mean h x : (expectation N (S c) (fun g => worth h (f g (x, 0%nat))) * (qnat N * qnat N) =
  qsum (map (fun d => if pick (fst d) (snd d) then expectation N c (fun g => worth h (s g (x, 0%nat))) else expectation N c (fun g => worth h (s' g (x, 0%nat)))) (draws N)))%Qc.
Proof.
  assert (Z : (qnat N * qnat N)%Qc <> 0%Qc) by (rewrite <- qnat_mul; apply qnat_neq0; nia).
  assert (P : powc (qnat N * qnat N) c <> 0%Qc).
  { now apply powc_neq0. }
  unfold expectation. rewrite !streams_count, streams_S. cbn [powc].
  transitivity (qsum (map (fun d => qsum (map (fun l => worth h (f (gen (d :: l)) (x, 0%nat))) (streams N c)) / powc (qnat N * qnat N) c)%Qc (draws N))).
  - transitivity (qsum (map (fun d => / powc (qnat N * qnat N) c * qsum (map (fun l => worth h (f (gen (d :: l)) (x, 0%nat))) (streams N c)))%Qc (draws N))).
    + rewrite qsum_mult_l. field. split; [exact P|]. intros E. apply Z. rewrite E. ring.
    + apply qsum_map_ext. intros d _. apply Qcmult_comm.
  - apply qsum_map_ext. intros d _. unfold f, chosen. cbn [gen unif choose nth fst snd]. destruct (pick (fst d) (snd d)); do 2 f_equal; apply map_ext; intros l; now apply mix_later.
Qed.

Lemma mix_leaves b ev : leaves_posterior N c b ev s -> leaves_posterior N c b ev s' -> leaves_posterior N (S c) b ev f.
Proof.
  intros L L' h. assert (Z : (qnat N * qnat N)%Qc <> 0%Qc) by (rewrite <- qnat_mul; apply qnat_neq0; nia).
  set (R := qsum (map (fun x => posterior b (hard ev) x * h x)%Qc (worlds b ev))).
  set (e := fun d x => if pick (fst d) (snd d) then expectation N c (fun g => worth h (s g (x, 0%nat))) else expectation N c (fun g => worth h (s' g (x, 0%nat)))).
  apply (Qcmult_cancel_r _ _ (qnat N * qnat N)%Qc Z). rewrite Qcmult_comm, <- qsum_mult_l.
  transitivity (qsum (map (fun x => qsum (map (fun d => posterior b (hard ev) x * e d x)%Qc (draws N))) (worlds b ev))).
  - apply qsum_map_ext. intros x _. rewrite qsum_mult_l. unfold e. rewrite <- mix_mean. ring.
  - rewrite (qsum_swap (fun x d => posterior b (hard ev) x * e d x)%Qc).
    rewrite (qsum_map_ext _ (fun _ => R)); [rewrite qsum_const, draws_length, qnat_mul; ring|].
    intros d _. unfold e. destruct (pick (fst d) (snd d)); [exact (L h)|exact (L' h)].
Qed.
End Mix.
