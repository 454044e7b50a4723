(** Rounded chains raise nothing and stay among the possible states. *)
From Coq Require Import Field.
From Verif Require Import Base NDArray Factor Exact Spec BaseFacts FactorProofs SpecFacts Sampling MCSpec MCFacts MCProof MCTop MCChain
  LawSpec LawCount LawKernel LawOne LawChain LawMean LawErgodic LawForward LawMCMC LawTop
  Rounded RoundedSpec RoundedProof RoundedTables RoundedTop RoundedDouble RoundedSample RoundedSampleSpec RoundedSampleDraw RoundedSampleOne RoundedSampleChain.

Section Stay.
Context {RD : Rounding}.
Variable b : bn.
Hypothesis SN : sampled_net b.
Let WB := sn_bn b SN.
Let NB := sn_nonneg b SN.

Definition lively (g : rng) : Prop := forall k, (0 < unif g k)%Qc.

Lemma joint_positive n x : In n (bnodes b) -> ((0 < joint b x)%Qc <-> (0 < blanket b n x)%Qc /\ (0 < outside b (dn_name n) x)%Qc).
Proof.
  intros Hn. rewrite (joint_split b WB n x Hn). pose proof (blanket_nonneg b n x NB Hn) as B0. pose proof (outside_nonneg b (dn_name n) x NB) as O0. split.
  - intros P. destruct (Qc_eq_dec (blanket b n x) 0%Qc) as [E|E]; [rewrite E, Qcmult_0_l in P; now apply Qc_lt_irrefl in P|].
    destruct (Qc_eq_dec (outside b (dn_name n) x) 0%Qc) as [E'|E']; [rewrite E', Qcmult_0_r in P; now apply Qc_lt_irrefl in P|].
    split; apply Qcle_lt_or_eq in B0, O0; destruct B0, O0; congruence || assumption.
  - intros [B O]. now apply Qcmult_pos.
Qed.

Lemma raccept_pos p c : (0 <= p)%Qc -> (0 < c)%Qc -> (0 < raccept p c)%Qc -> (0 < p)%Qc.
Proof.
  intros P C A. apply Qcle_lt_or_eq in P as [P|P]; [exact P|exfalso]. subst p. unfold raccept in A.
  destruct (qeqb c 0) eqn:E; [apply qeqb_true in E; rewrite E in C; now apply Qc_lt_irrefl in C|].
  cbv zeta in A. unfold Qcdiv in A. rewrite Qcmult_0_l, rnd_zero in A. vm_compute in A. discriminate.
Qed.

Lemma one_moves t g x k v : rng_ok g -> complete b x -> In v (bnames b) ->
  exists s, rchange_one t g b (x, k) v = Ok (s, k + per_variable t) /\ (s = x \/ exists y, In y (values_of b v) /\ s = dset v y x) /\
    (lively g -> 0 < joint b x -> 0 < joint b s)%Qc.
Proof.
  intros RG C Hv. destruct (node_of b SN v Hv) as (n & Hn & E & GN & V & NE & _).
  destruct (children_ok b WB (sn_graph b SN) (sn_edges b SN) (sn_once b SN) v Hv) as (cs & GC & PM). rewrite <- E in PM.
  assert (F : forall m, m = n \/ In m cs -> Forall (fun q => 0 <= q)%Qc (data (dn_cpd m))).
  { intros m [->|M]; [now apply NB|]. apply NB. exact (get_children_In b v cs GC m M). }
  assert (MB : forall y, In y (dn_values n) -> get_markov_prob n y cs (dset (dn_name n) y x) false = Ok (blanket b n (dset (dn_name n) y x))).
  { intros y Y. apply (markov_blanket b WB n (dset (dn_name n) y x) cs y); auto; [apply complete_dset; auto; now rewrite E, V|]. now rewrite look_dset. }
  destruct (C v Hv) as (cur & CU & CI). rewrite V in CI.
  assert (SX : forall P : Qc -> Prop, P (joint b x) -> P (joint b (dset (dn_name n) cur x))).
  { intros P H. rewrite E. rewrite (joint_ext b (dset v cur x) x); [exact H|]. now apply look_dset_same. }
  assert (PX : (0 < joint b x)%Qc -> (0 < blanket b n (dset (dn_name n) cur x))%Qc).
  { intros P. apply (SX (fun q => 0 < q)%Qc) in P. now apply (joint_positive n _ Hn) in P as [P _]. }
  assert (JP : forall y, (0 < joint b x)%Qc -> (0 < blanket b n (dset (dn_name n) y x))%Qc -> (0 < joint b (dset v y x))%Qc).
  { intros y P B. rewrite <- E. apply (joint_positive n _ Hn). split; [exact B|]. rewrite outside_same. now apply (joint_positive n _ Hn) in P as [_ P]. }
  destruct t; cbn [rchange_one per_variable].
  - unfold rgibbs_one. cbn [fst snd]. rewrite GN, GC. cbn [rbind]. unfold rdraw_value.
    destruct (rsample_hits g k n x cs false RG NE F) as (y & p & S1 & Y & S3 & S4); [intros y Y; eexists; now apply MB|].
    rewrite S1. cbn [rbind]. exists (dset v y x). rewrite Nat.add_1_r. split; [reflexivity|]. split; [right; exists y; split; [now rewrite V|reflexivity]|].
    intros LV P. rewrite (MB y Y) in S3. inversion S3; subst p. apply JP; [exact P|]. apply S4; [apply LV|]. exists cur, (blanket b n (dset (dn_name n) cur x)). split; [exact CI|]. split; [now apply MB|now apply PX].
  - unfold rmh_one. cbn [fst snd]. unfold dget_err. rewrite CU. cbn [rbind]. rewrite GN. cbn [rbind]. destruct (choice_ok g k (dn_values n) NE) as (y & Y & CH). rewrite CH. cbn [rbind]. rewrite GC. cbn [rbind].
    destruct (rmarkov_close n y cs (dset (dn_name n) y x) false _ F (MB y Y)) as (p' & R1 & K1). rewrite E in R1. rewrite R1. cbn [rbind].
    assert (MC : get_markov_prob n cur cs x false = Ok (blanket b n x)) by (apply (markov_blanket b WB n x cs cur); auto; rewrite E; now apply look_dget).
    destruct (rmarkov_close n cur cs x false _ F MC) as (c' & R2 & K2). rewrite R2. cbn [rbind].
    eexists. split; [rewrite <- plus_n_Sm, <- plus_n_Sm, Nat.add_0_r; reflexivity|]. destruct (qleb _ _) eqn:A; (split; [|intros LV P]).
    + right. exists y. split; [now rewrite V|reflexivity].
    + apply JP; [exact P|]. apply (close_pos _ _ _ K1). apply (raccept_pos p' c').
      * apply (proj1 (proj2 K1)).
      * apply (close_pos _ _ _ K2). now apply (joint_positive n _ Hn) in P as [P _].
      * apply qleb_true in A. eapply Qclt_le_trans; [apply (LV (S k))|exact A].
    + now left.
    + exact P.
Qed.

Variable ev : dict string.
Notation W := (worlds b ev).
Notation L := (possible b ev).

(** What a step keeps. *)
Definition stays (P : state -> Prop) : Prop := forall v y s, In v (free_vars b ev) -> In y (values_of b v) -> P s -> P (dset v y s).

Lemma free_name v : In v (free_vars b ev) -> In v (bnames b).
Proof. intros V. now apply (free_spec b SN) in V as [V _]. Qed.

Lemma step_moves t full g vs x k P : rng_ok g -> incl vs (free_vars b ev) -> full = true \/ vs <> [] -> stays P -> complete b x -> P x ->
  exists s, rstep t full g b vs (x, k) = Ok (s, k + per_step t full vs) /\ complete b s /\ P s /\ (lively g -> 0 < joint b x -> 0 < joint b s)%Qc.
Proof.
  intros RG I F ST C H.
  assert (ONE : forall x k v, complete b x -> P x -> In v (free_vars b ev) -> exists s, rchange_one t g b (x, k) v = Ok (s, k + per_variable t) /\ complete b s /\ P s /\
    (lively g -> 0 < joint b x -> 0 < joint b s)%Qc).
  { intros x' k' v C' H' V. destruct (one_moves t g x' k' v RG C' (free_name v V)) as (s & E & [->|(y & Y & ->)] & J); eexists; (split; [exact E|]); auto.
    split; [now apply complete_dset|]. split; [now apply ST|exact J]. }
  unfold rstep, per_step. destruct full.
  - clear F. revert x k C H. induction vs as [|v vs IH]; intros x k C H; cbn [foldM length Nat.mul].
    + exists x. replace (k + _) with k by lia. auto.
    + destruct (ONE x k v C H (I v (or_introl eq_refl))) as (s & E & C1 & P1 & J1). rewrite E. cbn [rbind]. destruct (IH (fun u U => I u (or_intror U)) s (k + per_variable t) C1 P1) as (s2 & E2 & C2 & P2 & J2).
      rewrite E2. exists s2. split; [f_equal; f_equal; lia|]. auto.
  - destruct F as [F|F]; [discriminate|]. cbn [fst snd]. destruct (choice_ok g k vs F) as (v & V & E). rewrite E. cbn [rbind].
    destruct (ONE x (S k) v C H (I v V)) as (s & E1 & H1). rewrite E1. exists s. split; [f_equal; f_equal; lia|exact H1].
Qed.

Lemma burn_moves t full g vs P n : rng_ok g -> incl vs (free_vars b ev) -> full = true \/ vs <> [] -> stays P -> forall x k, complete b x -> P x ->
  exists s, burn (rstep t full g b vs) n (x, k) = Ok (s, k + n * per_step t full vs) /\ complete b s /\ P s /\ (lively g -> 0 < joint b x -> 0 < joint b s)%Qc.
Proof.
  intros RG I F ST. induction n as [|n IH]; intros x k C H; cbn [burn Nat.mul]; [exists x; rewrite Nat.add_0_r; auto|].
  destruct (step_moves t full g vs x k P RG I F ST C H) as (s & E & C1 & P1 & J1). rewrite E. cbn [rbind]. destruct (IH s (k + per_step t full vs) C1 P1) as (s2 & E2 & C2 & P2 & J2).
  rewrite E2. exists s2. split; [f_equal; f_equal; lia|]. auto.
Qed.

Lemma yields_moves t full g vs P n : rng_ok g -> incl vs (free_vars b ev) -> full = true \/ vs <> [] -> stays P -> forall x k, complete b x -> P x ->
  exists l, yields (rstep t full g b vs) n (x, k) = Ok l /\ length l = n /\ (forall s, In s l -> complete b s /\ P s /\ (lively g -> 0 < joint b x -> 0 < joint b s)%Qc).
Proof.
  intros RG I F ST. induction n as [|n IH]; intros x k C H; cbn [yields]; [exists []; repeat split; contradiction|].
  destruct (step_moves t full g vs x k P RG I F ST C H) as (s & E & C1 & P1 & J1). rewrite E. cbn [rbind fst]. destruct (IH s (k + per_step t full vs) C1 P1) as (l & E2 & L & A).
  rewrite E2. exists (s :: l). split; [reflexivity|]. split; [cbn; now rewrite L|]. intros z [<-|Z]; [auto|]. destruct (A z Z) as (A1 & A2 & A3). auto.
Qed.

Lemma stays_keeps : stays (fun s => keeps ev s).
Proof.
  intros v y s V Y K u z Z. rewrite dget_dset_neq; [now apply K|]. intros ->. apply (free_spec b SN) in V as [_ V]. apply V. apply dget_In in Z. exact (in_map fst _ _ Z).
Qed.

Lemma stays_worlds : stays (fun s => In s W).
Proof. intros v y s V Y H. now apply (worlds_dset b SN). Qed.

Theorem chain_moves t burnIn full g n x : rng_ok g -> full = true \/ free_vars b ev <> [] -> complete b x -> keeps ev x ->
  exists l, rgenerate_chain t burnIn full g b n (x, 0) (Some ev) = Ok l /\ length l = n /\ (forall s, In s l -> complete b s /\ keeps ev s /\ (lively g -> 0 < joint b x -> 0 < joint b s)%Qc).
Proof.
  intros RG F C K. unfold rgenerate_chain. cbn [vars_to_change rbind].
  destruct (burn_moves t full g (free_vars b ev) (fun s => keeps ev s) burnIn RG (incl_refl _) F stays_keeps x 0 C K) as (s & E & C1 & K1 & J1). rewrite E. cbn [rbind].
  destruct (yields_moves t full g (free_vars b ev) (fun s => keeps ev s) n RG (incl_refl _) F stays_keeps s (0 + burnIn * per_step t full (free_vars b ev)) C1 K1) as (l & E2 & LN & A).
  exists l. split; [exact E2|]. split; [exact LN|]. intros z Z. destruct (A z Z) as (A1 & A2 & A3). auto.
Qed.

Lemma live_moves t full N l x : In l (streams N (per_step t full (free_vars b ev))) -> full = true \/ free_vars b ev <> [] -> In x L ->
  exists s, rstepp b t full (free_vars b ev) x l = Ok s /\ In s L.
Proof.
  intros Hl F X. set (vs := free_vars b ev) in *. set (c := per_step t full vs) in *. apply live_spec in X as [X P].
  destruct (step_moves t full (gen l) vs x 0 (fun s => In s W) (gen_ok N c l Hl) (incl_refl _) F stays_worlds (worlds_complete b SN ev x X) X) as (s & E & _ & S1 & J).
  pose proof (rstep_computes b t full vs F (gen l) x 0) as R. cbv beta in R. rewrite E in R. fold c in R. pose proof (proj1 (Forall_forall _ _) (streams_length N c) l Hl) as LE. cbv beta in LE.
  rewrite dl_gen in R by lia. rewrite firstn_all2 in R by lia. destruct (rstepp b t full vs x l) as [s'|]; cbn [rbind] in R; [|discriminate]. inversion R; subst s'.
  exists s. split; [reflexivity|]. apply live_spec. split; [exact S1|]. apply J; [|exact P]. intros k. apply (gen_positive N c l Hl).
Qed.
End Stay.

Lemma exact_live_moves b (SN : sampled_net b) ev t full N l x : In l (streams N (per_step t full (free_vars b ev))) -> full = true \/ free_vars b ev <> [] -> In x (possible b ev) ->
  exists s, stepp b t full (free_vars b ev) x l = Ok s /\ In s (possible b ev).
Proof.
  intros Hl F X. destruct (live_moves (RD := unrounded) b SN ev t full N l x Hl F X) as (s & E & S1). exists s. split; [|exact S1]. clear S1.
  set (vs := free_vars b ev) in *. set (c := per_step t full vs) in *. pose proof (proj1 (Forall_forall _ _) (streams_length N c) l Hl) as LE. cbv beta in LE.
  pose proof (rstep_computes (RD := unrounded) b t full vs F (gen l) x 0) as R. pose proof (step_computes b t full vs F (gen l) x 0) as R'. cbv beta in R, R'. rewrite exact_step, R' in R.
  fold c in R. rewrite dl_gen in R by lia. rewrite firstn_all2 in R by lia. rewrite E in R. destruct (stepp b t full vs x l) as [s'|]; cbn [rbind] in R; [|discriminate]. now inversion R.
Qed.
