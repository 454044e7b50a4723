(** The mean of the estimates of MCMC.marginals. *)
From Coq Require Import Field QArith.
From Verif Require Import Base NDArray Factor Exact Spec OrderSpec BaseFacts FactorProofs SpecFacts Sampling MCSpec MCFacts MCProof MCTop MCChain MCForward MCMarginal
  LawSpec LawCount LawKernel LawOne LawChain LawPost LawMean LawErgodic LawForward LawMCMC.

Section Net.
Variable b : bn.
Hypothesis SN : sampled_net b.
Hypothesis ST : stochastic_bn b.
Variable ev : dict string.
Variable order : list string.
Hypothesis TO : topological b order.
Hypothesis ND : NoDup (dkeys ev).
Hypothesis IN : incl (dkeys ev) (bnames b).
Hypothesis LE : legal_ev b ev.
Let WB := sn_bn b SN.
Notation W := (worlds b ev).
Notation x0 := (fold_left (fun d p => dset (fst p) (snd p) d) ev []).
Notation c0 := (length (unset ev order)).
Variable N : nat.
Hypothesis N0 : 0 < N.
Hypothesis FF : fwd_fine b ev N.
Notation NN := (qnat N * qnat N)%Qc.

Definition fwd (y : dict string) : Qc := qprod (map (fun n => entry n y) (filter (fun n => negb (dmem (dn_name n) ev)) (bnodes b))).

Lemma fwd_nonneg y : (0 <= fwd y)%Qc.
Proof.
  apply qprod_nonneg, Forall_forall. intros z Z. apply in_map_iff in Z as (n & <- & H). apply filter_In in H as [H _].
  apply (entry_nonneg b); [exact (sn_nonneg b SN)|exact H].
Qed.

Lemma agrees_canon y s : In y W -> complete b s -> agrees y s = agrees y (canon b s).
Proof.
  intros Y C. apply forallb_ext_in. intros [v a] P. cbn [fst snd]. f_equal.
  assert (V : In v (bnames b)). { apply filter_In in Y as [Y _]. apply states_keys in Y. rewrite <- (bvars_names b), <- Y. exact (in_map fst _ _ P). }
  destruct (C v V) as (x & E & _). pose proof (canon_same b SN s C v V) as S. rewrite E in S. symmetry in S.
  now rewrite (look_dget _ _ _ E), (look_dget _ _ _ S).
Qed.

Lemma agrees_worlds y z : In y W -> In z W -> agrees y z = true -> y = z.
Proof.
  intros Y Z A. apply filter_In in Y as [Y _]. apply filter_In in Z as [Z _].
  assert (NB : NoDup (map fst (bvars b))) by (rewrite bvars_names; apply (wb_names b WB)).
  apply (states_ext (bvars b)); auto. intros v V. unfold agrees in A. rewrite forallb_forall in A.
  assert (K : In v (dkeys y)) by (unfold dkeys; now rewrite (states_keys _ _ Y)). destruct (dget_key v y K) as (a & E).
  rewrite (look_dget _ _ _ E). apply dget_In in E. apply A in E. cbn [fst snd] in E. now apply String.eqb_eq in E.
Qed.

Lemma agrees_refl y : In y W -> agrees y y = true.
Proof.
  intros Y. apply filter_In in Y as [Y _]. apply forallb_forall. intros [v a] P. cbn [fst snd].
  rewrite (look_dget _ v a); [apply String.eqb_refl|]. apply In_dget; [|exact P]. unfold dkeys. rewrite (states_keys _ _ Y), bvars_names. apply (wb_names b WB).
Qed.

Lemma pick_world (f : dict string -> Qc) s : In s W -> qsum (map (fun y => ind (agrees y s) * f y)%Qc W) = f s.
Proof.
  intros S. transitivity (qsum (map (fun y => ind (agrees s y) * f y)%Qc W)).
  - apply qsum_map_ext. intros y Y. f_equal. f_equal. apply eq_true_iff_eq. split; intros A; apply agrees_worlds in A; auto; subst; now apply agrees_refl.
  - unfold worlds. rewrite qsum_filter. apply filter_In in S as [S A].
    transitivity (qsum (map (fun y => if agrees s y then (if agrees ev y then f y else 0%Qc) else 0%Qc) (states (bvars b)))).
    + apply qsum_map_ext. intros y _. destruct (agrees ev y), (agrees s y); cbn [ind]; ring.
    + rewrite states_single; auto; [now rewrite A| |].
      * rewrite bvars_names. apply (wb_names b WB).
      * intros v l I. unfold bvars in I. apply in_map_iff in I as (n & E & Hn). inversion E; subst. apply (wb_nodes b WB n Hn).
Qed.

Lemma stream_ok m l : In l (streams N m) -> rng_ok (gen l).
Proof. intros H i. destruct (gen_positive N m l H i). split; [now apply Qclt_le_weak|assumption]. Qed.

(** What forward sampling makes of a function of the state. *)
Lemma init_mean f : (forall s, complete b s -> keeps ev s -> f s = f (canon b s)) ->
  mean N c0 (initp b ev order) f x0 = qsum (map (fun y => fwd y * f y)%Qc W).
Proof.
  intros FC. apply mean_eq; [exact N0|]. rewrite <- qsum_mult_l.
  transitivity (qsum (map (fun l => qsum (map (fun y => ind (drawn y (get_sample (gen l) 0 b order ev)) * f y)%Qc W)) (streams N c0))).
  - apply qsum_map_ext. intros l L. destruct (sample_total b SN ev order TO (gen l) 0 (stream_ok _ l L) ND LE) as (s & k & E & C & K).
    rewrite E. unfold initp. unfold get_sample in E. rewrite E. cbn [val drawn]. rewrite (FC s C K).
    rewrite <- (pick_world f (canon b s)) by now apply canon_worlds. apply qsum_map_ext. intros y Y. now rewrite (agrees_canon y s Y C).
  - rewrite qsum_swap. apply qsum_map_ext. intros y Y.
    transitivity (f y * qsum (map (fun l => ind (drawn y (get_sample (gen l) 0 b order ev))) (streams N c0)))%Qc.
    + rewrite <- qsum_mult_l. apply qsum_map_ext. intros; ring.
    + etransitivity; [exact (f_equal (Qcmult (f y)) (fwd_count b SN ev order TO ND IN ST N y N0 FF Y))|]. unfold fwd. ring.
Qed.

Lemma fwd_total : qsum (map fwd W) = 1%Qc.
Proof.
  transitivity (qsum (map (fun y => fwd y * 1)%Qc W)); [apply qsum_map_ext; intros; ring|].
  rewrite <- (init_mean (fun _ => 1%Qc)) by reflexivity. apply mean_eq; [exact N0|]. rewrite Qcmult_1_r, <- (streams_count N c0).
  rewrite <- (Qcmult_1_r (qnat _)), <- qsum_const. apply qsum_map_ext. intros l L.
  destruct (sample_total b SN ev order TO (gen l) 0 (stream_ok _ l L) ND LE) as (s & k & E & _).
  unfold initp. unfold get_sample in E. now rewrite E.
Qed.

(** ** The chain that starts with the sample *)
Variable t : transition.
Variable full : bool.
Hypothesis F : full = true \/ free_vars b ev <> [].
Notation c := (per_step t full (free_vars b ev)).
Notation stepper := (stepp b t full (free_vars b ev)).

Lemma free_names : incl (free_vars b ev) (bnames b).
Proof. intros v V. now apply (free_spec b SN) in V as [V _]. Qed.

Lemma burn_value k q x l : length l = k * c ->
  val (fun s => ind (agrees q s)) (burnp c stepper k x l) =
  match burn (step t full (gen l) b (free_vars b ev)) k (x, 0) with Ok (s, _) => ind (agrees q s) | Err _ => 0%Qc end.
Proof.
  intros L. pose proof (burn_computes _ _ _ k (step_computes b t full (free_vars b ev) F) (gen l) x 0) as BC. cbv beta in BC. 
  symmetry. etransitivity; [exact (f_equal (fun r => match r with Ok (s, _) => ind (agrees q s) | Err _ => 0%Qc end) BC)|].
  rewrite (dl_gen l (k * c)) by lia. rewrite <- L, firstn_all. destruct (burnp _ _ _ x l); reflexivity.
Qed.

Lemma agrees_same q s s' : incl (dkeys q) (bnames b) -> same b s s' -> agrees q s = agrees q s'.
Proof.
  intros I S. apply forallb_ext_in. intros [v a] P. cbn [fst snd]. f_equal. unfold look. rewrite (S v); [reflexivity|]. apply I. exact (in_map fst _ _ P).
Qed.

Lemma burn_canon k q : incl (dkeys q) (bnames b) -> forall s, complete b s ->
  mean N (k * c) (burnp c stepper k) (fun s => ind (agrees q s)) s = mean N (k * c) (burnp c stepper k) (fun s => ind (agrees q s)) (canon b s).
Proof.
  intros I s C. unfold mean. f_equal. apply qsum_map_ext. intros l L.
  assert (LL : length l = k * c) by exact (proj1 (Forall_forall _ _) (streams_length N (k * c)) l L). rewrite !burn_value by exact LL.
  pose proof (burn_same b SN t full (gen l) (free_vars b ev) k free_names s (canon b s) 0 (canon_same b SN s C)) as A.
  destruct (burn _ k (s, 0)) as [[s1 k1]|], (burn _ k (canon b s, 0)) as [[s2 k2]|]; cbn in A; try contradiction; [|reflexivity].
  destruct A as [A _]. f_equal. now apply agrees_same.
Qed.

Lemma hits_positions q chain : qnat (hits q chain) = bigsum (length chain) (fun j => ind (shows q j (Ok chain))).
Proof.
  unfold bigsum, hits, shows. induction chain as [|s chain IH]; [reflexivity|]. cbn [length seq map filter nth_error qsum].
  rewrite <- seq_shift, map_map. cbn [nth_error]. rewrite <- IH. destruct (agrees q s); cbn [ind length]; [|ring]. now rewrite qnat_S.
Qed.

Variable vs : list string.
Hypothesis VS : incl vs (bnames b).

Lemma estimate_value burnIn n q m l : 0 < n -> is_inst b vs q -> In l (streams N m) -> c0 + (burnIn + n) * c <= m ->
  estimate q (mcmc_marginals t burnIn full n (gen l) b order vs ev) =
  (/ qnat n * bigsum n (fun j => val (fun s => ind (agrees q s)) (follow c0 (initp b ev order) (burnp c stepper (burnIn + S j)) x0 (firstn (c0 + (burnIn + S j) * c) l))))%Qc.
Proof.
  intros n0 Q L M. assert (nz : n <> 0) by lia.
  destruct (mcmc_frequencies b t burnIn full n (gen l) order vs ev SN (stream_ok m l L) TO ND LE VS nz F) as (s & k & chain & f & GS & GC & LC & MM & R & _).
  rewrite MM. cbn [estimate]. assert (P := proj2 (proj2 (proj2 (proj2 (proj2 (proj2 R)))))). rewrite (P q Q), hits_positions, LC.
  unfold Qcdiv. rewrite Qcmult_comm. f_equal. unfold bigsum. apply qsum_map_ext. intros j J. apply in_seq in J.
  unfold generate_chain in GC. cbn [vars_to_change rbind] in GC. destruct (burn _ burnIn (s, k)) as [a|] eqn:B; cbn [rbind] in GC; [|discriminate].
  destruct (yields_burn N N0 _ _ _ _ GC j) as (st & k2 & A1 & A2); [lia|].
  pose proof (computes_seq _ _ _ _ _ _ (init_computes b ev order) (burn_computes _ _ _ (burnIn + S j) (step_computes b t full (free_vars b ev) F)) (gen l) x0 0) as BC. cbv beta in BC.
  unfold get_sample in GS. match type of GS with ?u = _ => match type of BC with context[foldM ?f ?o ?a] => change (foldM f o a) with u in BC end end. rewrite GS in BC. cbn [rbind] in BC.
  assert (LL : length l = m) by exact (proj1 (Forall_forall _ _) (streams_length N m) l L).
  rewrite dl_gen in BC by (rewrite LL; nia). 
  match type of BC with ?u = _ => change u with (burn (step t full (gen l) b (free_vars b ev)) (burnIn + S j) (s, k)) in BC end. rewrite burn_add, B in BC. cbn [rbind] in BC. rewrite A2 in BC.
  destruct (follow _ _ _ x0 _) as [s'|]; cbn [rbind] in BC; [|discriminate]. inversion BC; subst. cbn [val shows]. now rewrite A1.
Qed.

Notation stepm := (mean N c stepper).

Lemma estimate_mean burnIn n q m : 0 < n -> is_inst b vs q -> c0 + (burnIn + n) * c <= m ->
  expectation N m (fun g => estimate q (mcmc_marginals t burnIn full n g b order vs ev)) =
  (/ qnat n * bigsum n (fun j => qsum (map (fun y => fwd y * iter stepm (burnIn + S j) (fun s => ind (agrees q s)) y)%Qc W)))%Qc.
Proof.
  intros n0 Q M. set (h := fun s => ind (agrees q s)). assert (NZ : powc NN m <> 0%Qc) by (apply powc_neq0, NN_neq0; exact N0).
  unfold expectation. rewrite streams_count.
  transitivity (qsum (map (fun l => / qnat n * bigsum n (fun j => val h (follow c0 (initp b ev order) (burnp c stepper (burnIn + S j)) x0 (firstn (c0 + (burnIn + S j) * c) l))))%Qc (streams N m)) / powc NN m)%Qc.
  { f_equal. apply qsum_map_ext. intros l L. now apply (estimate_value burnIn n q m). }
  rewrite qsum_mult_l. unfold Qcdiv. rewrite <- Qcmult_assoc. f_equal. rewrite Qcmult_comm. unfold bigsum. rewrite qsum_swap, <- qsum_mult_l.
  apply qsum_map_ext. intros j J. apply in_seq in J.
  rewrite (streams_prefix N (c0 + (burnIn + S j) * c) m (fun l => val h (follow c0 (initp b ev order) (burnp c stepper (burnIn + S j)) x0 l))) by nia.
  rewrite (eq_mean N N0).
  transitivity (mean N (c0 + (burnIn + S j) * c) (follow c0 (initp b ev order) (burnp c stepper (burnIn + S j))) h x0).
  { set (k := c0 + (burnIn + S j) * c). assert (K : k <= m) by (unfold k; nia). clearbody k. clear J.
    replace m with ((m - k) + k) at 1 by lia. rewrite powc_add. rewrite Qcmult_assoc. replace m with ((m - k) + k) in NZ by lia. rewrite powc_add in NZ.
    rewrite Qcmult_assoc, <- (Qcmult_assoc (/ _)), (Qcmult_comm (/ _)), Qcmult_inv_r by exact NZ. ring. }
  rewrite mean_follow by exact N0. rewrite init_mean.
  - apply qsum_map_ext. intros y _. now rewrite mean_burn.
  - intros s C _. apply burn_canon; [|exact C]. intros v V. apply VS. now apply Q.
Qed.
End Net.
