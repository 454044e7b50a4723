(** The bounds for sampling in rounded arithmetic vanish with the error of one operation. *)
From Coq Require Import Field.
From Verif Require Import Base BaseFacts NDArray Factor FactorProofs Spec Exact Sampling LawSpec LawCount LawTop Rounded RoundedSpec RoundedProof RoundedTop RoundedDouble RoundedSample RoundedSampleSpec RoundedSampleDraw RoundedSampleChain RoundedSampleCount RoundedSampleMix.
Local Open Scope Qc_scope.

Lemma qnat_Z n : 0 < qnat (S n).
Proof. apply qnat_pos. lia. Qed.

Lemma inv_qnat_le (a c : nat) : (0 < a)%nat -> (a <= c)%nat -> / qnat c <= / qnat a.
Proof.
  intros A L. assert (P : 0 < qnat a) by now apply qnat_pos. assert (Q : 0 < qnat c) by (apply qnat_pos; lia).
  assert (PZ : qnat a <> 0) by (intros E; rewrite E in P; now apply Qc_lt_irrefl in P). assert (QZ : qnat c <> 0) by (intros E; rewrite E in Q; now apply Qc_lt_irrefl in Q).
  apply (cancel_le (qnat a * qnat c)); [now apply Qcmult_pos|]. replace (qnat a * qnat c * / qnat c) with (qnat a) by (field; exact QZ). replace (qnat a * qnat c * / qnat a) with (qnat c) by (field; exact PZ). now apply qnat_le.
Qed.

(** Linear in the error of one operation. *)
Lemma slip_linear {RD : Rounding} b N : qnat (2 * draw_errors b) * ulp <= 1 / (1 + 1) -> slip b N <= qnat (widest b) * ((1 + 1) * (qnat (2 * draw_errors b) * ulp) + / qnat N).
Proof.
  intros H. unfold slip. apply le_mul; [apply qnat_nonneg| |apply Qcle_refl|].
  - apply Qcplus_nonneg; [apply Qcmult_nonneg; [discriminate|]; apply Qcmult_nonneg; [apply qnat_nonneg|apply ulp_nonneg]|].
    destruct N as [|N]; [discriminate|]. apply Qclt_le_weak, Qcinv_pos, qnat_Z.
  - apply Qcplus_le_compat; [|apply Qcle_refl]. assert (P := power_linear _ H). replace ((1 + 1) * (qnat (2 * draw_errors b) * ulp)) with (1 + (1 + 1) * (qnat (2 * draw_errors b) * ulp) - 1) by ring.
    apply Qcplus_le_compat; [exact P|apply Qcle_refl].
Qed.

Lemma slip_small b eta : 0 < eta -> exists A, (0 < A)%nat /\ forall (RD : Rounding) N, ulp <= / qnat A -> (A <= N)%nat -> slip b N <= eta.
Proof.
  intros E. set (w := qnat (widest b)). set (M := (2 * draw_errors b)%nat).
  destruct (archimedes (w * ((1 + 1) * qnat M + 1) / eta)) as (k & K). exists (k + 2 * M + 1)%nat. split; [lia|]. intros RD N U L.
  set (A := (k + 2 * M + 1)%nat) in *. assert (AP : 0 < qnat A) by (apply qnat_pos; lia). assert (AZ : qnat A <> 0) by (intros Z; rewrite Z in AP; now apply Qc_lt_irrefl in AP).
  assert (EZ : eta <> 0) by (intros Z; rewrite Z in E; now apply Qc_lt_irrefl in E).
  assert (IA : 0 <= / qnat A) by (apply Qclt_le_weak, Qcinv_pos, AP).
  assert (MU : qnat M * ulp <= qnat M * / qnat A) by (apply le_mul; [apply qnat_nonneg|exact IA|apply Qcle_refl|exact U]).
  assert (H : qnat M * ulp <= 1 / (1 + 1)).
  { eapply Qcle_trans; [exact MU|]. apply (cancel_le (qnat A * (1 + 1))); [apply Qcmult_pos; [exact AP|reflexivity]|].
    replace (qnat A * (1 + 1) * (qnat M * / qnat A)) with ((1 + 1) * qnat M) by (field; exact AZ). replace (qnat A * (1 + 1) * (1 / (1 + 1))) with (qnat A) by (field; discriminate).
    change (1 + 1) with (qnat 2). rewrite <- qnat_mul. apply qnat_le. unfold A. lia. }
  eapply Qcle_trans; [exact (slip_linear b N H)|]. fold w. fold M.
  apply Qcle_trans with (w * ((1 + 1) * qnat M + 1) * / qnat A).
  - replace (w * ((1 + 1) * qnat M + 1) * / qnat A) with (w * ((1 + 1) * (qnat M * / qnat A) + / qnat A)) by ring.
    assert (NN : 0 <= (1 + 1) * (qnat M * / qnat A) + / qnat A) by (apply Qcplus_nonneg; [apply Qcmult_nonneg; [discriminate|]; apply Qcmult_nonneg; [apply qnat_nonneg|exact IA]|exact IA]).
    apply le_mul; [apply qnat_nonneg|exact NN|apply Qcle_refl|]. apply Qcplus_le_compat; [|apply inv_qnat_le; [unfold A; lia|exact L]].
    apply le_mul; [discriminate|apply Qcmult_nonneg; [apply qnat_nonneg|exact IA]|apply Qcle_refl|exact MU].
  - apply (cancel_le (qnat A * / eta)); [apply Qcmult_pos; [exact AP|now apply Qcinv_pos]|].
    replace (qnat A * / eta * (w * ((1 + 1) * qnat M + 1) * / qnat A)) with (w * ((1 + 1) * qnat M + 1) / eta) by (field; auto).
    replace (qnat A * / eta * eta) with (qnat A) by (field; exact EZ). eapply Qcle_trans; [exact K|]. apply qnat_le. unfold A. lia.
Qed.

Lemma drift_small b ev full r e delta : 0 < e -> 0 < delta -> exists A, (0 < A)%nat /\ forall (RD : Rounding) N, ulp <= / qnat A -> (A <= N)%nat -> drift b ev N full r e <= delta.
Proof.
  intros E D. set (C := (1 + 1) * qnat (updates full (free_vars b ev)) * (qnat r / e)).
  assert (C0 : 0 <= C) by (apply Qcmult_nonneg; [apply Qcmult_nonneg; [discriminate|apply qnat_nonneg]|apply Qcdiv_nonneg; [apply qnat_nonneg|exact E]]).
  assert (C1 : 0 < C + 1) by (apply Qclt_le_trans with 1; [reflexivity|]; rewrite <- (Qcplus_0_l 1) at 1; apply Qcplus_le_compat; [exact C0|apply Qcle_refl]).
  assert (CZ : C + 1 <> 0) by (intros Z; rewrite Z in C1; now apply Qc_lt_irrefl in C1).
  assert (P : 0 < delta / (C + 1)) by (apply Qcmult_pos; [exact D|now apply Qcinv_pos]).
  destruct (slip_small b _ P) as (A & A0 & H). exists A. split; [exact A0|]. intros RD N U L.
  assert (S := H RD N U L). unfold drift. apply Qcle_trans with (C * (delta / (C + 1))).
  - replace ((1 + 1) * (qnat (updates full (free_vars b ev)) * slip b N) * (qnat r / e)) with (C * slip b N) by (unfold C; ring).
    apply le_mul; [exact C0|now apply Qclt_le_weak|apply Qcle_refl|exact S].
  - apply Qcle_trans with ((C + 1) * (delta / (C + 1))); [|replace ((C + 1) * (delta / (C + 1))) with delta by (field; exact CZ); apply Qcle_refl]. apply Qcmult_le_compat_r; [|now apply Qclt_le_weak].
    rewrite <- (Qcplus_0_r C) at 1. apply Qcplus_le_compat; [apply Qcle_refl|discriminate].
Qed.

(** Without rounding, MCMC.marginals is that of Sampling.v. *)
Lemma exact_marginals (AD : Adding) t burnIn full n g b order vs ev : @rmcmc_marginals unrounded AD t burnIn full n g b order vs ev = mcmc_marginals t burnIn full n g b order vs ev.
Proof.
  unfold rmcmc_marginals, mcmc_marginals. rewrite exact_sample. destruct (get_sample g 0 b order ev) as [i|]; [|reflexivity]. cbn [rbind]. match goal with |- context [rbind (foldM ?f vs []) _] => destruct (foldM f vs []) as [vv|] end; [|reflexivity]. cbn [rbind].
  rewrite exact_chain. destruct (generate_chain t burnIn full g b n i (Some ev)) as [l|]; [|reflexivity]. cbn [rbind].
  rewrite (rfrom_samples_eq (RD := unrounded)) by (intros k _; reflexivity). destruct (from_samples l vv) as [f|]; [|reflexivity]. cbn [rbind]. destruct f as [p o fv]. cbn [pot vorder fvals].
  destruct p as [sh d]. unfold amap. cbn. rewrite map_id. reflexivity.
Qed.
