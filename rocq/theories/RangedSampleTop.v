(** The law of sampling in arithmetic of limited range. *)
From Coq Require Import Field.
From Verif Require Import Base NDArray Factor Exact Spec BaseFacts NDArrayFacts FactorProofs SpecFacts Sampling LawSpec LawCount LawOne LawForward
  Rounded RoundedSpec RoundedProof Ranged RangedSpec RangedProof RoundedSample RoundedSampleSpec RoundedSampleOne RoundedSampleChain RoundedSampleCount RangedSample RangedSampleSpec RangedSampleProof.

Lemma chance_eq N m (X Y : rng -> bool) : (forall l, In l (streams N m) -> X (gen l) = Y (gen l)) -> chance N m X = chance N m Y.
Proof. intros H. unfold chance. do 3 f_equal. apply filter_ext_in. exact H. Qed.
Lemma expectation_eq N m (X Y : rng -> Qc) : (forall l, In l (streams N m) -> X (gen l) = Y (gen l)) -> expectation N m X = expectation N m Y.
Proof. intros H. unfold expectation. do 2 f_equal. apply map_ext_in. exact H. Qed.

Lemma gen_grainy N m l : 0 < N -> In l (streams N m) -> grainy (qnat (2 * N)) (gen l).
Proof.
  intros N0 H k. cbn [gen unif]. apply streams_draws in H. assert (Q1 : (1 <= qnat (2 * N))%Qc) by (apply (qnat_le 1); lia).
  assert (QZ : (qnat (2 * N) <> 0)%Qc) by (intros E; rewrite E in Q1; now apply Q1). right.
  destruct (Nat.lt_ge_cases k (length l)) as [L|L].
  - rewrite Forall_forall in H. specialize (H _ (nth_In l (half, 0) L)). destruct (nth k l (half, 0)) as [u c]. cbn [fst].
    unfold draws in H. apply in_prod_iff in H as [H _]. unfold grid in H. apply in_map_iff in H. destruct H as (j & <- & J). apply in_seq in J.
    replace (qnat (2 * j + 1) / qnat (2 * N) * qnat (2 * N))%Qc with (qnat (2 * j + 1)) by (field; exact QZ). split; [apply (qnat_le 1); lia|].
    apply Qcle_trans with 1%Qc; [|exact Q1]. replace 1%Qc with (qnat (2 * N) / qnat (2 * N))%Qc by (field; exact QZ). apply Qcmult_le_compat_r; [apply qnat_le; lia|].
    apply Qclt_le_weak, Qcinv_pos. eapply Qclt_le_trans; [|exact Q1]. reflexivity.
  - rewrite nth_overflow by lia. cbn [fst]. split.
    + replace (2 * N) with (N + N) by lia. rewrite qnat_add. replace (half * (qnat N + qnat N))%Qc with (qnat N * (half + half))%Qc by ring. replace (half + half)%Qc with 1%Qc by (apply Qc_is_canon; reflexivity).
      rewrite Qcmult_1_r. apply (qnat_le 1). lia.
    + apply Qcle_trans with 1%Qc; [discriminate|exact Q1].
Qed.
Lemma yields_length f n : forall acc l, yields f n acc = Ok l -> length l = n.
Proof.
  induction n as [|n IH]; intros acc l; cbn [yields]; [intros H; inversion H; subst; reflexivity|].
  destruct (f acc) as [a|]; cbn [rbind]; [|discriminate]. destruct (yields f n a) as [r|] eqn:E; cbn [rbind]; [|discriminate]. intros H. inversion H; subst. cbn [length]. now rewrite (IH _ _ E).
Qed.

Section Marginals.
Context {RD : Rounding} {LM : Limits} {AD : Adding}.
Lemma marginals_eq P U b g t burnIn full n order vs ev : tame P b [] -> (1 <= U)%Qc -> grainy U g -> (draw_need P U b 1 <= top)%Qc -> (chain_need t P U b <= top)%Qc ->
  0 < n -> counts_exactly n -> (qnat n <= top)%Qc -> marginals_with lim t burnIn full n g b order vs ev = rmcmc_marginals t burnIn full n g b order vs ev.
Proof.
  intros TM U1 GR T1 T2 N0 CE QT. unfold marginals_with, rmcmc_marginals. rewrite (sample_eq b P U TM U1 g GR order ev 0 T1).
  destruct (rget_sample g 0 b order ev) as [i|]; cbn [rbind]; [|reflexivity]. match goal with |- (let* vv := ?X in _) = _ => destruct X as [vv|] end; cbn [rbind]; [|reflexivity].
  rewrite (chain_eq b P U TM U1 g GR t burnIn full n i (Some ev) T2). destruct (rgenerate_chain t burnIn full g b n i (Some ev)) as [l|] eqn:E; cbn [rbind]; [|reflexivity].
  assert (L : length l = n). { unfold rgenerate_chain in E. destruct (vars_to_change b (Some ev)); cbn [rbind] in E; [|discriminate]. destruct (burn _ burnIn i); cbn [rbind] in E; [|discriminate]. exact (yields_length _ _ _ _ E). }
  apply from_samples_with_eq; rewrite L; assumption.
Qed.
End Marginals.

Lemma tame_nonneg P b : tame P b [] -> nonneg_bn b.
Proof. intros (P1 & D & _) n I. specialize (D n I). rewrite Forall_forall in *. intros x X. exact (amid_nonneg P x P1 (D x X)). Qed.
Definition amidsb (P : Qc) (l : list Qc) : bool := forallb (fun x => qeqb x 0 || (qleb 1 (x * P) && qleb x P)%Qc)%bool l.
Lemma amids_ok P l : amidsb P l = true -> Forall (amid P) l.
Proof.
  unfold amidsb. rewrite forallb_forall, Forall_forall. intros H x X. specialize (H x X). cbv beta in H. destruct (qeqb x 0) eqn:E; [left; now apply qeqb_true|]. cbn [orb] in H.
  apply andb_prop in H. destruct H as [A C]. right. split; now apply qleb_true.
Qed.
