From Coq Require Import Field.
From Verif Require Import Base NDArray Factor Exact Spec OrderSpec TreeSpec BaseFacts NDArrayFacts FactorFacts SpecFacts Sampling MCSpec.

(** Roulette wheel. *)
Lemma upto_0 ws : upto ws 0 = 0%Qc.
Proof. reflexivity. Qed.
Lemma upto_S w ws i : upto (w :: ws) (S i) = (w + upto ws i)%Qc.
Proof. reflexivity. Qed.

Lemma upto_step ws i : Forall (fun w => 0 <= w)%Qc ws -> (upto ws i <= upto ws (S i))%Qc.
Proof.
  intros F; revert i; induction F as [|w ws W F IH]; intros i.
  - unfold upto. rewrite !firstn_nil. apply Qcle_refl.
  - destruct i.
    + rewrite upto_S, !upto_0. replace (w + 0)%Qc with w by ring. exact W.
    + rewrite (upto_S w ws (S i)), (upto_S w ws i). apply Qcplus_le_compat; [apply Qcle_refl|apply IH].
Qed.

Lemma upto_mono ws i j : Forall (fun w => 0 <= w)%Qc ws -> i <= j -> (upto ws i <= upto ws j)%Qc.
Proof.
  intros F H; induction H; [apply Qcle_refl|]. eapply Qcle_trans; [exact IHle|]. apply upto_step, F.
Qed.

Lemma upto_all ws : upto ws (length ws) = qsum ws.
Proof. unfold upto. now rewrite firstn_all. Qed.

Lemma fold_qsum ws : forall s, fold_left Qcplus ws s = (s + qsum ws)%Qc.
Proof.
  induction ws as [|w ws IH]; intros s; cbn [fold_left qsum].
  - ring.
  - rewrite IH. ring.
Qed.

Lemma roulette_hit : forall ws values s r, length values = length ws -> (s < r)%Qc -> (r <= s + qsum ws)%Qc ->
  exists i, i < length ws /\ roulette values ws s r = Some (nth i values "") /\
    (s + upto ws i < r)%Qc /\ (r <= s + upto ws (S i))%Qc.
Proof.
  induction ws as [|w ws IH]; intros values s r L S1 S2.
  - exfalso. cbn [qsum] in S2. replace (s + 0)%Qc with s in S2 by ring. apply (Qclt_not_le _ _ S1 S2).
  - destruct values as [|x values]; [discriminate L|]. injection L as L. cbn [roulette].
    destruct (qleb r (s + w)%Qc) eqn:E.
    + exists 0. split; [cbn; lia|]. split; [reflexivity|]. split.
      * rewrite upto_0. replace (s + 0)%Qc with s by ring. exact S1.
      * rewrite upto_S, upto_0. apply qleb_true in E. replace (s + (w + 0))%Qc with (s + w)%Qc by ring. exact E.
    + unfold qleb in E. apply negb_false_iff, qltb_true in E.
      destruct (IH values (s + w)%Qc r L E) as (i & I & R & A & B).
      { cbn [qsum] in S2. replace (s + w + qsum ws)%Qc with (s + (w + qsum ws))%Qc by ring. exact S2. }
      exists (S i). split; [cbn; lia|]. split; [exact R|]. rewrite !upto_S.
      split; [replace (s + (w + upto ws i))%Qc with (s + w + upto ws i)%Qc by ring; exact A|].
      rewrite upto_S in B || idtac.
      replace (s + (w + upto ws (S i)))%Qc with (s + w + upto ws (S i))%Qc by ring. exact B.
Qed.

Lemma roulette_zero x values w ws : (0 <= w)%Qc -> roulette (x :: values) (w :: ws) 0%Qc 0%Qc = Some x.
Proof.
  intros W. cbn [roulette]. replace (0 + w)%Qc with w by ring.
  assert (E : qleb 0%Qc w = true) by now apply qleb_true. now rewrite E.
Qed.

Lemma upto_unique ws r i j : Forall (fun w => 0 <= w)%Qc ws ->
  (upto ws i < r)%Qc -> (r <= upto ws (S i))%Qc -> (upto ws j < r)%Qc -> (r <= upto ws (S j))%Qc -> i = j.
Proof.
  intros F A B C D. destruct (Nat.lt_trichotomy i j) as [H|[H|H]]; [|exact H|]; exfalso.
  - apply (Qclt_not_le _ _ C). eapply Qcle_trans; [exact B|]. now apply upto_mono.
  - apply (Qclt_not_le _ _ A). eapply Qcle_trans; [exact D|]. now apply upto_mono.
Qed.

Lemma Qcmult_lt_l (c x y : Qc) : (0 < c -> x < y -> c * x < c * y)%Qc.
Proof. intros C H. rewrite !(Qcmult_comm c). now apply Qcmult_lt_compat_r. Qed.
Lemma Qcmult_le_l (c x y : Qc) : (0 <= c -> x <= y -> c * x <= c * y)%Qc.
Proof. intros C H. rewrite !(Qcmult_comm c). now apply Qcmult_le_compat_r. Qed.

(** [sample_value], given its weights. *)
Section SampleValue.
Variables (g : rng) (k : nat) (n : dnode) (st : state) (cs : list dnode) (fwd : bool) (ws : list Qc).
Hypothesis W : mapM (fun x => get_markov_prob n x cs (dset (dn_name n) x st) fwd) (dn_values n) = Ok ws.
Hypothesis NN : Forall (fun w => 0 <= w)%Qc ws.
Hypothesis R0 : (0 <= unif g k)%Qc.
Hypothesis R1 : (unif g k < 1)%Qc.

Lemma sv_length : length (dn_values n) = length ws.
Proof. symmetry. exact (mapM_length _ _ _ W). Qed.

Lemma sv_rw : sample_value g k n st cs fwd =
  match roulette (dn_values n) ws 0%Qc (unif g k * qsum ws)%Qc with Some x => Ok (x, S k) | None => Err NonFinite end.
Proof. unfold sample_value. rewrite W. cbn [rbind]. rewrite fold_qsum. replace (0 + qsum ws)%Qc with (qsum ws) by ring. reflexivity. Qed.

Lemma sv_hit : (0 < unif g k)%Qc -> (0 < qsum ws)%Qc ->
  exists i, i < length (dn_values n) /\ sample_value g k n st cs fwd = Ok (nth i (dn_values n) "", S k) /\
    (upto ws i < unif g k * qsum ws)%Qc /\ (unif g k * qsum ws <= upto ws (S i))%Qc.
Proof.
  intros U Q.
  destruct (roulette_hit ws (dn_values n) 0%Qc (unif g k * qsum ws)%Qc sv_length) as (i & I & E & A & B).
  - now apply Qcmult_pos.
  - replace (0 + qsum ws)%Qc with (1 * qsum ws)%Qc by ring. apply Qcmult_le_compat_r; [now apply Qclt_le_weak|now apply Qclt_le_weak].
  - exists i. rewrite sv_length. split; [exact I|]. rewrite sv_rw, E. split; [reflexivity|].
    replace (0 + upto ws i)%Qc with (upto ws i) in A by ring.
    replace (0 + upto ws (S i))%Qc with (upto ws (S i)) in B by ring. auto.
Qed.

Lemma sv_iff i : NoDup (dn_values n) -> (0 < unif g k)%Qc -> (0 < qsum ws)%Qc -> i < length (dn_values n) ->
  (sample_value g k n st cs fwd = Ok (nth i (dn_values n) "", S k) <->
   (upto ws i < unif g k * qsum ws)%Qc /\ (unif g k * qsum ws <= upto ws (S i))%Qc).
Proof.
  intros ND U Q I. destruct (sv_hit U Q) as (j & J & E & A & B). split.
  - intros X. rewrite E in X. injection X as X. apply (NoDup_nth _ "") in X; auto. subst j. auto.
  - intros [C D]. rewrite (upto_unique ws _ i j NN C D A B). exact E.
Qed.

Lemma sv_total : dn_values n <> [] -> exists x, In x (dn_values n) /\ sample_value g k n st cs fwd = Ok (x, S k).
Proof.
  intros NE. destruct (Qc_dec 0%Qc (unif g k * qsum ws)%Qc) as [[H|H]|H].
  - destruct (Qc_dec 0%Qc (unif g k)) as [[U|U]|U].
    + destruct (Qc_dec 0%Qc (qsum ws)) as [[Q|Q]|Q].
      * destruct (sv_hit U Q) as (i & I & E & _). exists (nth i (dn_values n) ""). split; [now apply nth_In|exact E].
      * exfalso. apply (Qclt_not_le _ _ Q). now apply qsum_nonneg.
      * exfalso. rewrite <- Q in H. apply (Qclt_not_le _ _ H). replace (unif g k * 0)%Qc with 0%Qc by ring. apply Qcle_refl.
    + exfalso. apply (Qclt_not_le _ _ U R0).
    + exfalso. rewrite <- U in H. apply (Qclt_not_le _ _ H). replace (0 * qsum ws)%Qc with 0%Qc by ring. apply Qcle_refl.
  - exfalso. apply (Qclt_not_le _ _ H). apply Qcmult_nonneg; [exact R0|now apply qsum_nonneg].
  - rewrite sv_rw, <- H. pose proof sv_length as L. destruct (dn_values n) as [|x vs]; [contradiction|].
    destruct ws as [|w ws']; [discriminate L|]. exists x. split; [now left|].
    rewrite roulette_zero by (now inversion NN). reflexivity.
Qed.
End SampleValue.
