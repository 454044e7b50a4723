(** The mean of the estimates with any transition model. *)
From Coq Require Import Field QArith.
From Verif Require Import Base NDArray Factor Exact Spec OrderSpec BaseFacts FactorProofs SpecFacts Sampling MCSpec MCFacts MCProof MCTop MCChain MCForward MCMarginal
  LawSpec LawCount LawKernel LawOne LawChain LawPost LawMean LawErgodic LawForward LawMCMC LawEstimate LawTop SampleErrSpec SampleErrProof Stream StreamProof
  UserSampling UserSpec UserProof.

Section Net.
Variable b : bn.
Hypothesis SN : sampled_net b.
Hypothesis ST : stochastic_bn b.
Variable ev : dict string.
Variable order : list string.
Hypothesis TO : topological b order.
Hypothesis ND : NoDup (dkeys ev).
Hypothesis IN : incl (dkeys ev) (bnames b).
Hypothesis LE : legal_ev b ev.
Notation W := (worlds b ev).
Notation x0 := (fold_left (fun d p => dset (fst p) (snd p) d) ev []).
Notation c0 := (length (unset ev order)).
Variable N : nat.
Hypothesis N0 : 0 < N.
Hypothesis FF : fwd_fine b ev N.
Notation NN := (qnat N * qnat N)%Qc.
Variable s : user_step.
Variable full : bool.
Let f : rng -> move := fun g => s g b (unobserved b ev) full.
Variable c : nat.
Hypothesis DO : draws_only c f.
Hypothesis MI : forall g, rng_ok g -> minds b ev (f g).
Hypothesis NS : forall g, rng_ok g -> never_stops b ev (f g).
Hypothesis RV : reads_values b f.
Notation stepper := (asprog f).

Lemma user_burn_same g n : forall x y k, same b x y -> alike b (burn (f g) n (x, k)) (burn (f g) n (y, k)).
Proof.
  induction n as [|n IH]; intros x y k S; [now split|]. cbn [burn]. apply alike_bind; [exact (RV g x y k S)|]. auto.
Qed.

Lemma user_burn_value k q x l : length l = k * c ->
  val (fun s => ind (agrees q s)) (burnp c stepper k x l) =
  match burn (f (gen l)) k (x, 0) with Ok (s, _) => ind (agrees q s) | Err _ => 0%Qc end.
Proof.
  intros L. pose proof (burn_computes _ _ _ k (user_computes f c DO) (gen l) x 0) as BC. cbv beta in BC.
  symmetry. etransitivity; [exact (f_equal (fun r => match r with Ok (s, _) => ind (agrees q s) | Err _ => 0%Qc end) BC)|].
  rewrite (dl_gen l (k * c)) by lia. rewrite <- L, firstn_all. destruct (burnp _ _ _ x l); reflexivity.
Qed.

Lemma user_burn_canon k q : incl (dkeys q) (bnames b) -> forall x, complete b x ->
  mean N (k * c) (burnp c stepper k) (fun s => ind (agrees q s)) x = mean N (k * c) (burnp c stepper k) (fun s => ind (agrees q s)) (canon b x).
Proof.
  intros I x C. unfold mean. f_equal. apply qsum_map_ext. intros l L.
  assert (LL : length l = k * c) by exact (proj1 (Forall_forall _ _) (streams_length N (k * c)) l L). rewrite !user_burn_value by exact LL.
  pose proof (user_burn_same (gen l) k x (canon b x) 0 (canon_same b SN x C)) as A.
  destruct (burn _ k (x, 0)) as [[s1 k1]|], (burn _ k (canon b x, 0)) as [[s2 k2]|]; cbn in A; try contradiction; [|reflexivity].
  destruct A as [A _]. f_equal. now apply (agrees_same b).
Qed.

Variable vs : list string.
Hypothesis VS : incl vs (bnames b).

Lemma user_estimate_value burnIn n q m l : 0 < n -> is_inst b vs q -> In l (streams N m) -> c0 + (burnIn + n) * c <= m ->
  estimate q (mcmc_marginals_with (Some s) burnIn full n (gen l) b order vs ev) =
  (/ qnat n * bigsum n (fun j => val (fun s => ind (agrees q s)) (follow c0 (initp b ev order) (burnp c stepper (burnIn + S j)) x0 (firstn (c0 + (burnIn + S j) * c) l))))%Qc.
Proof.
  intros n0 Q L M. assert (nz : n <> 0) by lia. pose proof (stream_ok N m l L) as RG.
  destruct (marginals_with b SN ev order TO ND LE (gen l) RG vs VS (Some s) burnIn full n nz (MI (gen l) RG)) as (x & k & GS & CX & KX & [(e & AF & _)|(chain & F & LC & J & MM & R & _)]).
  { apply after_burn in AF. destruct (burn_never b ev (f (gen l)) (MI _ RG) (NS _ RG) (burnIn + n) x k CX KX) as (s' & k' & E).
    cbn [sampler_model] in AF. change (burn (f (gen l)) (burnIn + n) (x, k) = Err e) in AF. congruence. }
  rewrite MM. cbn [estimate]. assert (P := proj2 (proj2 (proj2 (proj2 (proj2 (proj2 R)))))). rewrite (P q Q), hits_positions, LC.
  unfold Qcdiv. rewrite Qcmult_comm. f_equal. unfold bigsum. apply qsum_map_ext. intros j HJ. apply in_seq in HJ.
  destruct (nth_error chain j) as [st|] eqn:NE; [|apply nth_error_None in NE; lia]. destruct (J j st NE) as (_ & _ & k2 & AF). apply after_burn in AF.
  cbn [sampler_model] in AF. change (burn (f (gen l)) (burnIn + S j) (x, k) = Ok (st, k2)) in AF.
  pose proof (computes_seq _ _ _ _ _ _ (init_computes b ev order) (burn_computes _ _ _ (burnIn + S j) (user_computes f c DO)) (gen l) x0 0) as BC. cbv beta in BC.
  unfold get_sample in GS. match type of GS with ?u = _ => match type of BC with context[foldM ?f ?o ?a] => change (foldM f o a) with u in BC end end. rewrite GS in BC. cbn [rbind] in BC.
  assert (LL : length l = m) by exact (proj1 (Forall_forall _ _) (streams_length N m) l L).
  rewrite dl_gen in BC by (rewrite LL; nia). rewrite AF in BC.
  destruct (follow _ _ _ x0 _) as [s'|]; cbn [rbind] in BC; [|discriminate]. inversion BC; subst. cbn [val shows]. now rewrite NE.
Qed.

Notation stepm := (mean N c stepper).

Lemma user_estimate_mean burnIn n q m : 0 < n -> is_inst b vs q -> c0 + (burnIn + n) * c <= m ->
  expectation N m (fun g => estimate q (mcmc_marginals_with (Some s) burnIn full n g b order vs ev)) =
  (/ qnat n * bigsum n (fun j => qsum (map (fun y => fwd b ev y * iter stepm (burnIn + S j) (fun s => ind (agrees q s)) y)%Qc W)))%Qc.
Proof.
  intros n0 Q M. set (h := fun s => ind (agrees q s)). assert (NZ : powc NN m <> 0%Qc) by (apply powc_neq0, NN_neq0; exact N0).
  unfold expectation. rewrite streams_count.
  transitivity (qsum (map (fun l => / qnat n * bigsum n (fun j => val h (follow c0 (initp b ev order) (burnp c stepper (burnIn + S j)) x0 (firstn (c0 + (burnIn + S j) * c) l))))%Qc (streams N m)) / powc NN m)%Qc.
  { f_equal. apply qsum_map_ext. intros l L. now apply (user_estimate_value burnIn n q m). }
  rewrite qsum_mult_l. unfold Qcdiv. rewrite <- Qcmult_assoc. f_equal. rewrite Qcmult_comm. unfold bigsum. rewrite qsum_swap, <- qsum_mult_l.
  apply qsum_map_ext. intros j J. apply in_seq in J.
  rewrite (streams_prefix N (c0 + (burnIn + S j) * c) m (fun l => val h (follow c0 (initp b ev order) (burnp c stepper (burnIn + S j)) x0 l))) by nia.
  rewrite (eq_mean N N0).
  transitivity (mean N (c0 + (burnIn + S j) * c) (follow c0 (initp b ev order) (burnp c stepper (burnIn + S j))) h x0).
  { set (k := c0 + (burnIn + S j) * c). assert (K : k <= m) by (unfold k; nia). clearbody k. clear J.
    replace m with ((m - k) + k) at 1 by lia. rewrite powc_add. rewrite Qcmult_assoc. replace m with ((m - k) + k) in NZ by lia. rewrite powc_add in NZ.
    rewrite Qcmult_assoc, <- (Qcmult_assoc (/ _)), (Qcmult_comm (/ _)), Qcmult_inv_r by exact NZ. ring. }
  rewrite mean_follow by exact N0. rewrite (init_mean b SN ST ev order TO ND IN LE N N0 FF).
  - apply qsum_map_ext. intros y _. now rewrite mean_burn.
  - intros x C _. apply user_burn_canon; [|exact C]. intros v V. apply VS. now apply Q.
Qed.

Lemma user_unbiased burnIn n q m : leaves_posterior N c b ev f -> upstream b ev -> (0 < mass b (hard ev) [])%Qc -> 0 < n -> is_inst b vs q -> c0 + (burnIn + n) * c <= m ->
  expectation N m (fun g => estimate q (mcmc_marginals_with (Some s) burnIn full n g b order vs ev)) = posterior b (hard ev) q.
Proof.
  intros LP U MP n0 Q M. rewrite (user_estimate_mean burnIn n q m n0 Q M).
  set (h := fun s => ind (agrees q s)). set (K := mass b (hard ev) []) in *. assert (KZ : K <> 0%Qc) by (intros E; rewrite E in MP; now apply Qc_lt_irrefl in MP).
  apply (user_invariant b SN ev ND IN N N0 f c KZ) in LP.
  assert (EQ : forall k, qsum (map (fun y => fwd b ev y * iter stepm k h y)%Qc W) = posterior b (hard ev) q).
  { intros k. apply (Qcmult_cancel K); [exact KZ|]. rewrite <- qsum_mult_l.
    transitivity (qsum (map (fun y => joint b y * iter stepm k h y)%Qc W)).
    { apply qsum_map_ext. intros y Y. rewrite <- (upstream_fwd b SN ev ND IN ST order TO LE N N0 FF U y Y). fold K. ring. }
    transitivity (qsum (map (fun y => joint b y * h y)%Qc W)).
    - apply (Qcmult_cancel (powc (qnat N * qnat N) (k * c))); [apply powc_neq0, NN_neq0; exact N0|].
      rewrite <- (burn_invariant b ev N c stepper k LP h).
      rewrite <- qsum_mult_l. apply qsum_map_ext. intros y Y. rewrite (eq_mean N N0), (mean_burn N N0). ring.
    - unfold h. rewrite <- (mass_worlds b ev ND IN). unfold posterior. fold K. destruct (qeqb K 0%Qc) eqn:E; [now apply qeqb_true in E|].
      unfold Qcdiv. rewrite (Qcmult_comm (mass _ _ _)), Qcmult_assoc, Qcmult_inv_r by exact KZ. ring. }
  transitivity (/ qnat n * bigsum n (fun _ => posterior b (hard ev) q))%Qc.
  - f_equal. unfold bigsum. apply qsum_map_ext. intros j _. apply EQ.
  - unfold bigsum. rewrite qsum_const, seq_length, Qcmult_assoc, (Qcmult_comm (/ _)), Qcmult_inv_r by now apply qnat_neq0. ring.
Qed.
End Net.
