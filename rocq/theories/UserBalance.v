(** Detailed balance is enough. *)
From Coq Require Import Field QArith.
From Verif Require Import Base NDArray Factor Exact Spec OrderSpec BaseFacts FactorProofs SpecFacts Sampling MCSpec MCFacts MCProof MCTop MCChain
  LawSpec LawCount LawKernel LawOne LawChain LawPost LawMean LawErgodic LawForward LawMCMC LawEstimate UserSampling UserSpec UserProof.

Section Net.
Variable b : bn.
Hypothesis SN : sampled_net b.
Variable ev : dict string.
Notation W := (worlds b ev).
Variables N c : nat.
Hypothesis N0 : 0 < N.
Variable f : rng -> move.
Hypothesis WW : within_worlds N c b ev f.

Lemma mean_chance h x : In x W ->
  expectation N c (fun g => worth h (f g (x, 0%nat))) = qsum (map (fun y => chance N c (fun g => drawn y (f g (x, 0%nat))) * h y)%Qc W).
Proof.
  intros X. unfold expectation. transitivity (/ qnat (length (streams N c)) * qsum (map (fun l => qsum (map (fun y => ind (drawn y (f (gen l) (x, 0%nat))) * h y)%Qc W)) (streams N c)))%Qc.
  - unfold Qcdiv. rewrite Qcmult_comm. f_equal. apply qsum_map_ext. intros l L. destruct (WW x l X L) as (y & k & E & Y). rewrite E. cbn [worth drawn].
    symmetry. exact (pick_world b SN ev h y Y).
  - rewrite qsum_swap, <- qsum_mult_l. apply qsum_map_ext. intros y Y. unfold chance, Qcdiv. rewrite <- qsum_indicator.
    rewrite <- Qcmult_assoc, (Qcmult_comm (/ _) (h y)), Qcmult_assoc, (Qcmult_comm (/ _)). f_equal.
    rewrite (Qcmult_comm _ (h y)), <- qsum_mult_l. apply qsum_map_ext. intros l _. destruct (drawn _ _); cbn [ind]; ring.
Qed.

Lemma chance_all x : In x W -> qsum (map (fun y => chance N c (fun g => drawn y (f g (x, 0%nat)))) W) = 1%Qc.
Proof.
  intros X. pose proof (mean_chance (fun _ => 1%Qc) x X) as M. transitivity (qsum (map (fun y => chance N c (fun g => drawn y (f g (x, 0%nat))) * 1)%Qc W)).
  - apply qsum_map_ext. intros; ring.
  - rewrite <- M. unfold expectation. transitivity (qsum (map (fun _ => 1%Qc) (streams N c)) / qnat (length (streams N c)))%Qc.
    + f_equal. apply qsum_map_ext. intros l L. destruct (WW x l X L) as (y & k & E & _). now rewrite E.
    + rewrite qsum_const, Qcmult_1_r. unfold Qcdiv. apply Qcmult_inv_r. rewrite streams_count. apply powc_neq0, NNz, N0.
Qed.

Lemma balanced_leaves : balanced N c b ev f -> leaves_posterior N c b ev f.
Proof.
  intros B h.
  transitivity (qsum (map (fun x => qsum (map (fun y => posterior b (hard ev) y * chance N c (fun g => drawn x (f g (y, 0%nat))) * h y)%Qc W)) W)).
  - apply qsum_map_ext. intros x X. rewrite (mean_chance h x X), <- qsum_mult_l. apply qsum_map_ext. intros y Y. rewrite Qcmult_assoc, (B x y X Y). reflexivity.
  - rewrite qsum_swap. apply qsum_map_ext. intros y Y.
    transitivity (posterior b (hard ev) y * h y * qsum (map (fun x => chance N c (fun g => drawn x (f g (y, 0%nat)))) W))%Qc.
    + rewrite <- qsum_mult_l. apply qsum_map_ext. intros; ring.
    + rewrite (chance_all y Y). ring.
Qed.
End Net.
