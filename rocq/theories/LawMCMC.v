(** The distribution of forward samples and of the estimates of MCMC.marginals. *)
From Coq Require Import Field QArith.
From Verif Require Import Base NDArray Factor Exact Spec OrderSpec BaseFacts FactorProofs SpecFacts Sampling MCSpec MCFacts MCProof MCTop MCChain MCForward MCMarginal
  LawSpec LawCount LawKernel LawOne LawChain LawPost LawMean LawErgodic LawForward.

Lemma streams_prefix N c m (F : list (Qc * nat) -> Qc) : c <= m ->
  qsum (map (fun l => F (firstn c l)) (streams N m)) = (powc (qnat N * qnat N) (m - c) * qsum (map F (streams N c)))%Qc.
Proof.
  intros L. replace m with (c + (m - c)) at 1 by lia. rewrite streams_split, <- qsum_mult_l. apply qsum_map_ext. intros l1 L1.
  rewrite <- streams_count, <- qsum_const. apply qsum_map_ext. intros l2 L2.
  pose proof (proj1 (Forall_forall _ _) (streams_length N c) l1 L1) as LE. now rewrite <- LE, firstn_app, Nat.sub_diag, firstn_all, app_nil_r.
Qed.

Lemma gen_positive N m l : In l (streams N m) -> forall k, (0 < unif (gen l) k)%Qc /\ (unif (gen l) k < 1)%Qc.
Proof.
  intros H k. cbn [gen unif]. apply streams_draws in H. destruct (Nat.lt_ge_cases k (length l)) as [L|L].
  - rewrite Forall_forall in H. specialize (H _ (nth_In l (half, 0%nat) L)). destruct (nth k l (half, 0%nat)) as [u c]. cbn [fst].
    unfold draws in H. apply in_prod_iff in H as [H _]. now apply grid_in in H.
  - rewrite nth_overflow by lia. cbn [fst]. split; reflexivity.
Qed.

Section Net.
Variable b : bn.
Hypothesis SN : sampled_net b.
Variable ev : dict string.
Variable order : list string.
Hypothesis TO : topological b order.
Hypothesis ND : NoDup (dkeys ev).
Hypothesis IN : incl (dkeys ev) (bnames b).
Let WB := sn_bn b SN.
Notation W := (worlds b ev).
Notation x0 := (fold_left (fun d p => dset (fst p) (snd p) d) ev []).
Notation c0 := (length (unset ev order)).

(** ** Forward sampling *)
Definition fwd_fine (N : nat) : Prop := forall n x i, In n (bnodes b) -> In x W -> i <= length (dn_values n) -> fine N (upto (conditional n x) i).

Lemma fwd_some : exists D, 0 < D /\ forall N, Nat.divide D N -> fwd_fine N.
Proof.
  destruct (each_some (bnodes b) (fun n N => forall x, In x W -> forall i, In i (seq 0 (S (length (dn_values n)))) -> fine N (upto (conditional n x) i))) as (D & P & H).
  - intros n Hn. apply (each_some W (fun x N => forall i, In i (seq 0 (S (length (dn_values n)))) -> fine N (upto (conditional n x) i))). intros x X.
    apply (each_some (seq 0 (S (length (dn_values n)))) (fun i N => fine N (upto (conditional n x) i))). intros i _. apply fine_some.
    unfold upto. apply qsum_nonneg. pose proof (conditional_nonneg b SN n x Hn) as F. rewrite <- (firstn_skipn i) in F. now apply Forall_app in F.
  - exists D. split; [exact P|]. intros N DN n x i Hn X I. apply (H N DN n Hn x X). apply in_seq. lia.
Qed.

Lemma upto_le_sum ws i : Forall (fun w => 0 <= w)%Qc ws -> (upto ws i <= qsum ws)%Qc.
Proof.
  intros F. unfold upto. rewrite <- (firstn_skipn i ws) at 2. rewrite qsum_app. rewrite <- (Qcplus_0_r (qsum (firstn i ws))) at 1.
  apply Qcplus_le_compat; [apply Qcle_refl|]. apply qsum_nonneg. rewrite <- (firstn_skipn i ws) in F. now apply Forall_app in F.
Qed.

Hypothesis ST : stochastic_bn b.

Lemma slot_fine N x v : fwd_fine N -> In x W -> In v (bnames b) -> box_fine N (slot b x v).
Proof.
  intros FF X V. destruct (node_of b SN v V) as (n & Hn & E & GN & VV & _). unfold slot. rewrite GN. set (i := position (look x v) (dn_values n)).
  assert (I : i < length (dn_values n)).
  { unfold i. rewrite position_idx. apply idx_lt. destruct (worlds_complete b SN ev x X v V) as (a & A & Ia). rewrite (look_dget _ _ _ A). now rewrite <- VV. }
  pose proof (conditional_nonneg b SN n x Hn) as NNg. split; [apply FF; auto; lia|]. split; [apply FF; auto|]. cbn [fst snd]. split.
  - apply upto_mono; [exact NNg|lia].
  - rewrite <- (conditional_sum b ST n x Hn). now apply upto_le_sum.
Qed.

Lemma fwd_count N y : 0 < N -> fwd_fine N -> In y W ->
  qsum (map (fun l => ind (drawn y (get_sample (gen l) 0 b order ev))) (streams N c0)) =
  (powc (qnat N * qnat N) c0 * qprod (map (fun n => entry n y) (filter (fun n => negb (dmem (dn_name n) ev)) (bnodes b))))%Qc.
Proof.
  intros N0 FF Y. pose proof (worlds_complete b SN ev y Y) as C. pose proof (worlds_keep b SN ev y IN Y) as K.
  assert (inO : forall v, In v order <-> In v (bnames b)).
  { intros v. split; intros H; [eapply Permutation_in; [symmetry; apply TO|exact H]|eapply Permutation_in; [apply TO|exact H]]. }
  rewrite <- (qprod_slots b SN ev order TO y C). set (boxes := map (slot b y) (unset ev order)).
  assert (LB : length boxes = c0) by apply map_length. rewrite <- LB. rewrite <- box_count; [|exact N0|].
  - apply qsum_map_ext. intros l L. f_equal. apply eq_true_iff_eq. rewrite inside_ok.
    assert (LL : length l = c0) by (rewrite <- LB; exact (proj1 (Forall_forall _ _) (streams_length N (length boxes)) l L)).
    assert (NDO : NoDup order) by (eapply Permutation_NoDup; [apply TO|exact (wb_names _ WB)]).
    destruct (box_steps b SN ev order TO ST (gen l) y (gen_positive N _ l L) C K order [] x0 0 eq_refl NDO (proj1 (init_settled b ev ND)) (fun v H => False_ind _ H)) as [A B].
    replace (map (unif (gen l)) (seq 0 c0)) with (map fst l) in A, B; [fold boxes in A, B|].
    + split.
      * intros H. apply A. unfold drawn in H. unfold get_sample in H. destruct (foldM _ _ _) as [[s k]|] eqn:E; [|discriminate].
        exists s, k. split; [reflexivity|]. intros v V. apply inO in V.
        assert (S : settled b ev order s).
        { assert (LE : legal_ev b ev).
          { intros u a U Ua. destruct (C u U) as (a' & A' & Ia). rewrite (K u a Ua) in A'. congruence. }
          assert (RG : rng_ok (gen l)) by (intros i; destruct (gen_positive N _ l L i); split; [now apply Qclt_le_weak|assumption]).
          destruct (sample_steps b SN ev order TO (gen l) RG LE order [] x0 0 eq_refl (init_settled b ev ND)) as (s' & k' & E' & S'). congruence. }
        destruct (proj2 S v) as (a & Aa & Ia); [now apply inO|]. destruct (C v V) as (a' & A' & Ia'). rewrite Aa, A'. f_equal.
        unfold agrees in H. rewrite forallb_forall in H. apply dget_In in A'. apply H in A'. cbn [fst snd] in A'. apply String.eqb_eq in A'.
        now rewrite (look_dget _ _ _ Aa) in A'.
      * intros H. apply B in H as (s & k & E & H). unfold drawn, get_sample. rewrite E. unfold agrees. apply forallb_forall. intros [v a] P. cbn [fst snd].
        assert (V : In v (bnames b)). { apply filter_In in Y as [Y _]. apply states_keys in Y. rewrite <- (bvars_names b), <- Y. exact (in_map fst _ _ P). }
        assert (NK : NoDup (dkeys y)). { apply filter_In in Y as [Y _]. unfold dkeys. rewrite (states_keys _ _ Y), bvars_names. apply (wb_names b WB). }
        rewrite (look_dget _ v a); [apply String.eqb_refl|]. rewrite H by now apply inO. now apply In_dget.
    + apply (nth_ext _ _ half half); [now rewrite !map_length, seq_length|]. rewrite map_length. intros i I.
      rewrite (nth_indep (map fst l) half (fst (half, 0%nat))) by now rewrite map_length. rewrite map_nth.
      rewrite (nth_indep _ half (unif (gen l) 0)) by (rewrite map_length, seq_length; lia). rewrite map_nth, seq_nth by lia. reflexivity.
  - apply Forall_forall. intros p P. apply in_map_iff in P as (v & <- & V). apply slot_fine; auto. apply filter_In in V as [V _]. now apply inO.
Qed.

(** ** Locality *)
Definition initp : prog := fun x l => match foldM (sample_one (gen l) b ev) order (x, 0) with Ok (s, _) => Ok s | Err e => Err e end.

Lemma fwd_local g g' : forall post st k k', (forall i, i < length (unset ev post) -> unif g (k + i) = unif g' (k' + i)) ->
  foldM (sample_one g b ev) post (st, k) =
  match foldM (sample_one g' b ev) post (st, k') with Ok (s, _) => Ok (s, k + length (unset ev post)) | Err e => Err e end.
Proof.
  induction post as [|v post IH]; intros st k k' H; cbn [foldM unset filter length]; [now rewrite Nat.add_0_r|].
  unfold sample_one at 1 3. cbn [fst snd]. unfold unset in H. cbn [filter] in H. fold (unset ev post) in *. destruct (dmem v ev) eqn:M; cbn [negb rbind length] in *.
  - now apply IH.
  - destruct (get_node b v) as [n|]; cbn [rbind]; [|reflexivity]. destruct (get_children b v) as [cs|]; cbn [rbind]; [|reflexivity].
    unfold sample_value. destruct (mapM _ _) as [ws|]; cbn [rbind]; [|reflexivity]. pose proof (H 0 (Nat.lt_0_succ _)) as U. rewrite !Nat.add_0_r in U. rewrite U.
    destruct (roulette _ _ _ _) as [a|]; cbn [rbind]; [|reflexivity]. rewrite (IH _ (S k) (S k')).
    + destruct (foldM _ post _) as [[s k2]|]; [|reflexivity]. now rewrite Nat.add_succ_r.
    + intros i I. specialize (H (S i)). rewrite !Nat.add_succ_r in H. cbn. apply H. lia.
Qed.

Lemma init_computes : computes (fun g a => foldM (sample_one g b ev) order a) initp c0.
Proof.
  intros g st k. unfold initp. rewrite (fwd_local g (gen (dl g k c0)) order st k 0).
  - destruct (foldM _ order (st, 0)) as [[s k1]|]; reflexivity.
  - intros i I. cbn [Nat.add gen unif]. unfold dl.
    rewrite (nth_indep _ _ (unif g 0, choose g 0)) by (rewrite map_length, seq_length; exact I).
    rewrite (map_nth (fun i => (unif g i, choose g i)) (seq k c0) 0 i), seq_nth by exact I. reflexivity.
Qed.

Lemma fwd_chance N m y : 0 < N -> fwd_fine N -> In y W -> c0 <= m ->
  chance N m (fun g => drawn y (get_sample g 0 b order ev)) =
  qprod (map (fun n => entry n y) (filter (fun n => negb (dmem (dn_name n) ev)) (bnodes b))).
Proof.
  intros N0 FF Y M. destruct (chance_sum N m (fun g => drawn y (get_sample g 0 b order ev))) as [E|E]; [|lia].
  assert (NZ : powc (qnat N * qnat N) m <> 0%Qc) by (apply powc_neq0, NN_neq0; exact N0).
  apply (Qcmult_cancel (powc (qnat N * qnat N) m)); [exact NZ|]. rewrite Qcmult_comm.
  etransitivity; [exact E|].
  transitivity (qsum (map (fun l => ind (drawn y (get_sample (gen (firstn c0 l)) 0 b order ev))) (streams N m))).
  - apply qsum_map_ext. intros l L. f_equal. unfold get_sample. assert (LL : length l = m) by exact (proj1 (Forall_forall _ _) (streams_length N m) l L).
    rewrite (fwd_local (gen l) (gen (firstn c0 l)) order x0 0 0).
    + destruct (foldM _ _ _) as [[s k]|]; reflexivity.
    + intros i I. cbn [Nat.add gen unif]. f_equal. rewrite <- (firstn_skipn c0 l) at 1. rewrite app_nth1; [reflexivity|]. rewrite firstn_length. lia.
  - rewrite (streams_prefix N c0 m (fun l => ind (drawn y (get_sample (gen l) 0 b order ev)))) by exact M.
    etransitivity; [exact (f_equal (Qcmult _) (fwd_count N y N0 FF Y))|]. rewrite Qcmult_assoc. f_equal. rewrite <- powc_add. f_equal. lia.
Qed.
End Net.
