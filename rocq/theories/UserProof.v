(** Chains of any transition model. *)
From Coq Require Import Field QArith.
From Verif Require Import Base NDArray Factor Exact Spec OrderSpec TreeSpec BaseFacts NDArrayFacts FactorFacts SpecFacts FactorSpec FactorProofs Sampling
  MCSpec MCFacts MCProof MCTop MCChain MCForward MCMarginal LawSpec LawCount LawKernel LawOne LawChain LawPost SampleErrSpec SampleErrProof
  Stream StreamProof UserSampling UserSpec.

Lemma after_burn f n : forall a r, after f n a r <-> burn f n a = r.
Proof.
  induction n as [|n IH]; intros a r; cbn [burn].
  - split; intros H; [now inversion H|subst r; apply after_none].
  - split; intros H.
    + inversion H as [|? ? e E|? ? a' ? E A]; subst; rewrite E; cbn [rbind]; [reflexivity|now apply IH].
    + destruct (f a) as [a'|e] eqn:E; cbn [rbind] in H; [eapply after_more; [exact E|now apply IH]|subst r; now apply after_stop].
Qed.

Lemma yields_outcome f n : forall a, match burn f n a with Ok _ => exists l, yields f n a = Ok l /\ length l = n | Err e => yields f n a = Err e end.
Proof.
  induction n as [|n IH]; intros a; cbn [burn yields]; [exists []; now split|]. destruct (f a) as [a'|e]; cbn [rbind]; [|reflexivity].
  specialize (IH a'). destruct (burn f n a') as [z|e]; [destruct IH as (l & -> & L)|rewrite IH; reflexivity].
  cbn [rbind]. eexists. split; [reflexivity|]. cbn [length]. now rewrite L.
Qed.

Section Net.
Variable b : bn.
Hypothesis SN : sampled_net b.
Variable ev : state.
Let WB := sn_bn b SN.

Lemma burn_minds f : minds b ev f -> forall n st k st' k', complete b st -> keeps ev st -> burn f n (st, k) = Ok (st', k') -> complete b st' /\ keeps ev st'.
Proof.
  intros M. induction n as [|n IH]; intros st k st' k' C K E; cbn [burn] in E; [inversion E; subst; now split|].
  destruct (f (st, k)) as [[s i]|e] eqn:F; cbn [rbind] in E; [|discriminate]. destruct (M _ _ _ _ C K F) as [C1 K1]. eapply IH; [exact C1|exact K1|exact E].
Qed.

Lemma yields_minds f : minds b ev f -> forall n st k l, complete b st -> keeps ev st -> yields f n (st, k) = Ok l -> Forall (fun s => complete b s /\ keeps ev s) l.
Proof.
  intros M. induction n as [|n IH]; intros st k l C K E; cbn [yields] in E; [inversion E; constructor|].
  destruct (f (st, k)) as [[s i]|e] eqn:F; cbn [rbind] in E; [|discriminate]. destruct (M _ _ _ _ C K F) as [C1 K1].
  destruct (yields f n (s, i)) as [l'|e] eqn:Y; cbn [rbind] in E; [|discriminate]. inversion E; subst. constructor; [now split|]. eapply IH; eauto.
Qed.

Lemma burn_never f : minds b ev f -> never_stops b ev f -> forall n st k, complete b st -> keeps ev st -> exists st' k', burn f n (st, k) = Ok (st', k').
Proof.
  intros M NS. induction n as [|n IH]; intros st k C K; cbn [burn]; [eauto|]. destruct (f (st, k)) as [[s i]|e] eqn:F; cbn [rbind]; [|now destruct (NS _ _ _ C K F)].
  destruct (M _ _ _ _ C K F) as [C1 K1]. now apply IH.
Qed.

Lemma count_fine vv a s : (forall v l, In (v, l) vv -> In v (bnames b) /\ l = values_of b v) -> complete b s -> exists a', count_sample vv a s = Ok a'.
Proof.
  intros VN C. unfold count_sample.
  assert (X : exists idx, mapM (fun p => let* x := dget_err KeyError (fst p) s in py_index x (snd p)) vv = Ok idx).
  { clear a. induction vv as [|[v l] vv IH]; [now exists []|]. cbn [mapM fst snd]. destruct (VN v l (or_introl eq_refl)) as [Hv ->].
    destruct (C v Hv) as (x & D & X). unfold dget_err at 1. rewrite D. cbn [rbind]. unfold py_index at 1. destruct (index_of x (values_of b v)) as [i|] eqn:I.
    - cbn [rbind]. destruct IH as (idx & ->); [intros; apply VN; now right|]. cbn [rbind]. eauto.
    - apply index_of_None in I. contradiction. }
  destruct X as (idx & ->). cbn [rbind]. eauto.
Qed.

Lemma counted_fails f vv e : minds b ev f -> (forall v l, In (v, l) vv -> In v (bnames b) /\ l = values_of b v) ->
  forall n st k a, complete b st -> keeps ev st -> yields f n (st, k) = Err e -> counted f vv n (st, k) a = Err e.
Proof.
  intros M VN. induction n as [|n IH]; intros st k a C K E; cbn [yields counted] in *; [discriminate|].
  destruct (f (st, k)) as [[s i]|e'] eqn:F; cbn [rbind fst] in *; [|congruence]. destruct (M _ _ _ _ C K F) as [C1 K1].
  destruct (count_fine vv a s VN C1) as (a' & ->). cbn [rbind]. apply IH; auto. destruct (yields f n (s, i)); cbn [rbind] in E; [discriminate E|congruence].
Qed.

Variable order : list string.
Hypothesis TO : topological b order.
Hypothesis ND : NoDup (dkeys ev).
Hypothesis LE : legal_ev b ev.
Variable g : rng.
Hypothesis RG : rng_ok g.
Variable vs : list string.
Hypothesis IV : incl vs (bnames b).

Lemma marginals_with m burnIn full n : n <> 0 ->
  let f := sampler_model m g b (unobserved b ev) full in
  minds b ev f ->
  exists init k, get_sample g 0 b order ev = Ok (init, k) /\ complete b init /\ keeps ev init /\
  ((exists e, after f (burnIn + n) (init, k) (Err e) /\ mcmc_marginals_with m burnIn full n g b order vs ev = Err e) \/
   exists chain F, length chain = n /\
     (forall j st, nth_error chain j = Some st -> complete b st /\ keeps ev st /\ exists k', after f (burnIn + S j) (init, k) (Ok (st, k'))) /\
     mcmc_marginals_with m burnIn full n g b order vs ev = Ok F /\
     reports b F vs (fun q => qnat (hits q chain) / qnat n)%Qc /\ qsum (data (pot F)) = 1%Qc).
Proof.
  intros NZ f M. destruct (sample_total b SN ev order TO g 0 RG ND LE) as (init & k & GS & C & K). exists init, k. split; [exact GS|]. split; [exact C|]. split; [exact K|].
  destruct (collect_values b WB vs [] IV) as (vv & EV & NV & KV & HV); [discriminate|constructor|].
  assert (VN : forall v l, In (v, l) vv -> In v (bnames b) /\ l = values_of b v).
  { intros v l Hl. pose proof (In_dget v l vv NV Hl) as D. split; [|now apply HV]. apply IV. apply dget_Some_key, KV in D. destruct D as [[]|D]; exact D. }
  unfold mcmc_marginals_with. rewrite GS. cbn [rbind]. rewrite EV. cbn [rbind vars_to_change]. rewrite (free_unobserved b ev). fold f.
  pose proof (burn_add f burnIn n (init, k)) as BA. destruct (burn f burnIn (init, k)) as [[st i]|e] eqn:B; cbn [rbind] in *.
  2:{ left. exists e. split; [now apply after_burn|reflexivity]. }
  destruct (burn_minds f M _ _ _ _ _ C K B) as [C1 K1]. pose proof (yields_outcome f n (st, i)) as Y. destruct (burn f n (st, i)) as [z|e] eqn:B2.
  2:{ left. exists e. split; [now apply after_burn|]. now rewrite (counted_fails f vv e M VN n st i _ C1 K1 Y). }
  right. destruct Y as (chain & Y & L). pose proof (yields_minds f M _ _ _ _ C1 K1 Y) as FA. rewrite (counted_ok _ _ _ _ _ _ Y).
  destruct (samples_named vv chain) as (F & FS & G & VO & FV & SUM & POT).
  - exact NV.
  - intros v l Hl. destruct (VN v l Hl) as [Hv ->]. destruct (node_of b SN v Hv) as (n' & _ & _ & _ & -> & _ & Q). exact Q.
  - intros ->. cbn in L. now subst.
  - intros s Hs v l Hl. destruct (VN v l Hl) as [Hv ->]. rewrite Forall_forall in FA. now apply (proj1 (FA s Hs)).
  - exists chain, F. split; [exact L|]. split.
    { intros j s J. assert (LT : j < n) by (rewrite <- L; apply nth_error_Some; congruence). destruct (yields_burn 1 Nat.lt_0_1 f n _ _ Y j LT) as (s' & k' & A & D).
      rewrite J in A. inversion A; subst s'. rewrite Forall_forall in FA. destruct (FA s (nth_error_In _ _ J)) as [C2 K2]. split; [exact C2|]. split; [exact K2|].
      exists k'. apply after_burn. now rewrite burn_add, B. }
    split; [exact FS|]. split; [|exact SUM].
    assert (VS : forall v, In v (vorder F) <-> In v vs) by (intros v; rewrite VO, KV; cbn; tauto).
    assert (DV : forall v, In v (vorder F) -> dget v (fvals F) = Some (values_of b v)).
    { intros v Hv. rewrite VO in Hv. rewrite FV. destruct (dget_key v vv Hv) as (l & D). rewrite D. f_equal. now apply HV. }
    split; [apply G|]. split; [exact VS|]. split; [exact DV|]. split; [apply G|]. split.
    { rewrite (gf_shape _ G). apply map_ext_in. intros v Hv. unfold fvalues. now rewrite (DV v Hv). }
    split; [apply G|]. intros q (Q1 & Q2 & Q3). rewrite POT.
    + rewrite L. reflexivity.
    + exact Q1.
    + intros v. rewrite Q2, <- VS, VO. tauto.
    + intros v Hv. assert (Hq : In v (dkeys q)) by (apply Q2, VS, Hv). destruct (dget_key v q Hq) as (x & D). exists x.
      split; [exact D|]. unfold fvalues. rewrite (DV v Hv). apply (Q3 v x). now apply dget_In.
Qed.

Lemma marginals_abstract burnIn full n : 0 < burnIn + n -> mcmc_marginals_with (Some abstract_step) burnIn full n g b order vs ev = Err NotImplementedError.
Proof.
  intros P. destruct (sample_total b SN ev order TO g 0 RG ND LE) as (init & k & GS & _). 
  destruct (collect_values b WB vs [] IV) as (vv & EV & _); [discriminate|constructor|].
  unfold mcmc_marginals_with. rewrite GS. cbn [rbind]. rewrite EV. cbn [rbind vars_to_change sampler_model]. unfold abstract_step.
  destruct burnIn as [|m]; [|reflexivity]. destruct n as [|n]; [lia|]. reflexivity.
Qed.
End Net.

(** ** Stationary chains *)
Section Law.
Variable b : bn.
Hypothesis SN : sampled_net b.
Variable ev : dict string.
Hypothesis ND : NoDup (dkeys ev).
Hypothesis IN : incl (dkeys ev) (bnames b).
Variable N : nat.
Hypothesis N0 : 0 < N.
Variable f : rng -> move.
Variable c : nat.
Hypothesis DO : draws_only c f.

Definition asprog : prog := fun st l => match f (gen l) (st, 0) with Ok (s, _) => Ok s | Err e => Err e end.

Lemma user_computes : computes f asprog c.
Proof.
  intros g st k. pose proof (DO g (gen (dl g k c)) st k 0) as H. unfold asprog.
  assert (A : forall i, i < c -> unif g (k + i) = unif (gen (dl g k c)) (0 + i) /\ choose g (k + i) = choose (gen (dl g k c)) (0 + i)).
  { intros i I. cbn [Nat.add gen unif choose].
    assert (E : nth i (dl g k c) (half, 0) = (unif g (k + i), choose g (k + i))).
    { unfold dl. rewrite (nth_indep _ _ ((fun i => (unif g i, choose g i)) 0)) by (rewrite map_length, seq_length; exact I).
      rewrite (map_nth (fun i => (unif g i, choose g i)) (seq k c) 0 i), seq_nth by exact I. reflexivity. }
    rewrite E. now split. }
  specialize (H A). destruct (f g (st, k)) as [[s i]|e], (f (gen (dl g k c)) (st, 0)) as [[s' i']|e']; try contradiction; cbn [rbind].
  - destruct H as (-> & -> & _). reflexivity.
  - now rewrite H.
Qed.

Lemma NNz : (qnat N * qnat N)%Qc <> 0%Qc.
Proof. intros E. apply Qcmult_integral in E as [E|E]; now apply (qnat_neq0 N N0). Qed.

Lemma expect_sum h x : (powc (qnat N * qnat N) c * expectation N c (fun g => worth h (f g (x, 0%nat))) = qsum (map (fun l => val h (asprog x l)) (streams N c)))%Qc.
Proof.
  unfold expectation. rewrite streams_count. unfold Qcdiv. rewrite (Qcmult_comm (qsum _)), Qcmult_assoc, Qcmult_inv_r, Qcmult_1_l by (apply powc_neq0, NNz).
  apply qsum_map_ext. intros l _. unfold worth, val, asprog. destruct (f (gen l) (x, 0)) as [[s i]|]; reflexivity.
Qed.

Hypothesis MP : mass b (hard ev) [] <> 0%Qc.

Lemma posterior_sum (X : dict string -> Qc) : qsum (map (fun x => posterior b (hard ev) x * X x)%Qc (worlds b ev)) =
  (/ mass b (hard ev) [] * qsum (map (fun x => joint b x * X x)%Qc (worlds b ev)))%Qc.
Proof.
  rewrite <- qsum_mult_l. apply qsum_map_ext. intros x W. unfold posterior. destruct (qeqb (mass b (hard ev) []) 0%Qc) eqn:Z.
  - exfalso. apply MP. now apply qeqb_true in Z.
  - rewrite (mass_full b SN ev ND IN x W). unfold Qcdiv. ring.
Qed.

Lemma user_invariant : leaves_posterior N c b ev f <-> invariant b ev N asprog c.
Proof.
  split; intros H h.
  - specialize (H h). rewrite !posterior_sum in H. apply (f_equal (Qcmult (mass b (hard ev) []))) in H. rewrite !Qcmult_assoc, !Qcmult_inv_r, !Qcmult_1_l in H by exact MP.
    rewrite <- H, <- qsum_mult_l. apply qsum_map_ext. intros x _. rewrite <- expect_sum. ring.
  - rewrite !posterior_sum. f_equal. apply (Qcmult_cancel (powc (qnat N * qnat N) c)); [apply powc_neq0, NNz|]. rewrite <- (H h), <- qsum_mult_l.
    apply qsum_map_ext. intros x _. rewrite <- expect_sum. ring.
Qed.

Hypothesis MI : forall g, rng_ok g -> minds b ev (f g).
Hypothesis NS : forall g, rng_ok g -> never_stops b ev (f g).

Lemma user_shows burnIn n j g x q : rng_ok g -> complete b x -> keeps ev x -> j < n ->
  shows q j (let* acc := burn (f g) burnIn (x, 0) in yields (f g) n acc) =
  match burn (f g) (burnIn + S j) (x, 0) with Ok (s, _) => agrees q s | Err _ => false end.
Proof.
  intros G C K J. rewrite burn_add. destruct (burn_never b ev (f g) (MI g G) (NS g G) burnIn x 0 C K) as (s & i & E). rewrite E. cbn [rbind].
  destruct (burn_minds b ev (f g) (MI g G) _ _ _ _ _ C K E) as [C1 K1]. destruct (burn_never b ev (f g) (MI g G) (NS g G) n s i C1 K1) as (s2 & i2 & E2).
  pose proof (yields_outcome (f g) n (s, i)) as Y. rewrite E2 in Y. destruct Y as (l & Y & _). rewrite Y.
  destruct (yields_burn 1 Nat.lt_0_1 _ _ _ _ Y j J) as (st & k & A & B). rewrite B. cbn [shows]. now rewrite A.
Qed.

Lemma user_chance burnIn n j x q m : complete b x -> keeps ev x -> j < n -> (burnIn + S j) * c <= m ->
  let d := (burnIn + S j) * c in
  (powc (qnat N * qnat N) d * chance N m (fun g => shows q j (let* acc := burn (f g) burnIn (x, 0%nat) in yields (f g) n acc)) =
   qsum (map (fun l => val (fun s => ind (agrees q s)) (burnp c asprog (burnIn + S j)%nat x l)) (streams N d)))%Qc.
Proof.
  intros C K J L d. set (S1 := qsum (map _ (streams N d))).
  destruct (chance_sum N m (fun g => shows q j (let* acc := burn (f g) burnIn (x, 0%nat) in yields (f g) n acc))) as [E|E]; [|lia].
  assert (T : qsum (map (fun l => ind (shows q j (let* acc := burn (f (gen l)) burnIn (x, 0%nat) in yields (f (gen l)) n acc))) (streams N m)) =
              (powc (qnat N * qnat N) (m - d) * S1)%Qc).
  { replace m with (d + (m - d)) at 1 by (unfold d; lia). rewrite streams_split. unfold S1. rewrite <- qsum_mult_l. apply qsum_map_ext. intros l1 L1.
    rewrite <- streams_count, <- qsum_const. apply qsum_map_ext. intros l2 L2.
    pose proof (proj1 (Forall_forall _ _) (streams_length N d) l1 L1) as LE.
    assert (G : rng_ok (gen (l1 ++ l2))).
    { intros k. cbn [gen unif].
      assert (D : Forall (fun d => In d (draws N)) (l1 ++ l2)) by (apply Forall_app; split; eapply streams_draws; eauto).
      destruct (Nat.lt_ge_cases k (length (l1 ++ l2))) as [LT|LT].
      - rewrite Forall_forall in D. specialize (D _ (nth_In _ (half, 0) LT)). destruct (nth k (l1 ++ l2) (half, 0)) as [u w]. cbn [fst].
        unfold draws in D. apply in_prod_iff in D as [D _]. apply grid_in in D as [A B]. split; [now apply Qclt_le_weak|exact B].
      - rewrite nth_overflow by lia. cbn [fst]. split; [discriminate|reflexivity]. }
    rewrite user_shows by assumption.
    pose proof (burn_computes _ _ _ (burnIn + S j) user_computes (gen (l1 ++ l2)) x 0) as BC. cbv beta in BC.
    etransitivity; [apply f_equal; exact (f_equal (fun r => match r with Ok (s, _) => agrees q s | Err _ => false end) BC)|].
    fold d. rewrite (dl_gen (l1 ++ l2) d) by (rewrite app_length, LE; apply Nat.le_add_r). rewrite <- LE at 1. rewrite firstn_app, Nat.sub_diag, firstn_all, app_nil_r.
    destruct (burnp _ _ _ x l1); reflexivity. }
  rewrite T in E. replace m with (d + (m - d)) in E at 2 by (unfold d; lia). rewrite powc_add in E.
  apply (Qcmult_cancel (powc (qnat N * qnat N) (m - d))); [apply powc_neq0, NNz|]. rewrite <- E. ring.
Qed.

Lemma user_stationary burnIn n j q m : leaves_posterior N c b ev f -> j < n -> (burnIn + S j) * c <= m ->
  qsum (map (fun x => posterior b (hard ev) x * chance N m (fun g => shows q j (let* acc := burn (f g) burnIn (x, 0%nat) in yields (f g) n acc)))%Qc (worlds b ev)) =
  posterior b (hard ev) q.
Proof.
  intros LP J L. apply user_invariant in LP. rewrite posterior_sum.
  transitivity (/ mass b (hard ev) [] * qsum (map (fun x => joint b x * ind (agrees q x))%Qc (worlds b ev)))%Qc.
  - f_equal. apply (Qcmult_cancel (powc (qnat N * qnat N) ((burnIn + S j) * c))); [apply powc_neq0, NNz|].
    etransitivity; [|exact (burn_invariant b ev N _ _ (burnIn + S j) LP (fun s => ind (agrees q s)))]. rewrite <- qsum_mult_l.
    apply qsum_map_ext. intros x X. rewrite <- (user_chance burnIn n j x q m); auto; [ring| |].
    + now apply (worlds_complete b SN ev).
    + now apply (worlds_keep b SN ev).
  - unfold posterior. destruct (qeqb (mass b (hard ev) []) 0%Qc) eqn:Z; [exfalso; apply MP; now apply qeqb_true in Z|].
    rewrite <- (mass_worlds b ev ND IN). unfold Qcdiv. ring.
Qed.
End Law.

(** ** Sequences, and the steps of the package *)
Lemma sequence_fit b ev N c d s s' : sampled_net b -> NoDup (dkeys ev) -> incl (dkeys ev) (bnames b) -> 0 < N -> mass b (hard ev) [] <> 0%Qc ->
  draws_only c s -> draws_only d s' ->
  (forall g, rng_ok g -> minds b ev (s g) /\ never_stops b ev (s g)) -> (forall g, rng_ok g -> minds b ev (s' g) /\ never_stops b ev (s' g)) ->
  leaves_posterior N c b ev s -> leaves_posterior N d b ev s' ->
  let f := fun g a => match s g a with Ok a' => s' g a' | Err e => Err e end in
  draws_only (c + d) f /\ (forall g, rng_ok g -> minds b ev (f g) /\ never_stops b ev (f g)) /\ leaves_posterior N (c + d) b ev f.
Proof.
  intros SN ND IN N0 MP DO DO' M M' LP LP' f.
  assert (DF : draws_only (c + d) f).
  { intros g g' st k k' H. unfold f. pose proof (DO g g' st k k' (fun i I => H i (Nat.lt_lt_add_r _ _ _ I))) as A.
    destruct (s g (st, k)) as [[s1 i1]|e1], (s g' (st, k')) as [[s2 i2]|e2]; try contradiction; [|exact A].
    destruct A as (-> & -> & ->). pose proof (DO' g g' s2 (k + c) (k' + c)) as B.
    assert (H' : forall i, i < d -> unif g (k + c + i) = unif g' (k' + c + i) /\ choose g (k + c + i) = choose g' (k' + c + i)).
    { intros i I. rewrite <- !Nat.add_assoc. apply H. lia. }
    specialize (B H'). destruct (s' g (s2, k + c)) as [[s3 i3]|e3], (s' g' (s2, k' + c)) as [[s4 i4]|e4]; try contradiction; [|exact B].
    destruct B as (-> & -> & ->). rewrite <- !Nat.add_assoc. now repeat split. }
  split; [exact DF|]. split.
  - intros g G. destruct (M g G) as [M1 N1], (M' g G) as [M2 N2]. split.
    + intros st k st' k' C K E. unfold f in E. destruct (s g (st, k)) as [[s1 i1]|e1] eqn:E1; [|discriminate]. destruct (M1 _ _ _ _ C K E1) as [C1 K1]. exact (M2 _ _ _ _ C1 K1 E).
    + intros st k e C K E. unfold f in E. destruct (s g (st, k)) as [[s1 i1]|e1] eqn:E1; [|exact (N1 _ _ _ C K E1)]. destruct (M1 _ _ _ _ C K E1) as [C1 K1]. exact (N2 _ _ _ C1 K1 E).
  - apply (user_invariant b SN ev ND IN N N0 s c MP) in LP. apply (user_invariant b SN ev ND IN N N0 s' d MP) in LP'. apply (user_invariant b SN ev ND IN N N0 f (c + d) MP).
    pose proof (follow_invariant b ev N _ _ _ _ LP LP') as FI. intros h. rewrite <- (FI h). apply qsum_map_ext. intros x _. f_equal. apply qsum_map_ext. intros l L.
    f_equal. pose proof (proj1 (Forall_forall _ _) (streams_length N (c + d)) l L) as LE. cbv beta in LE. unfold follow, asprog, f.
    pose proof (user_computes s c DO (gen l) x 0) as A. rewrite (dl_gen l c) in A by lia. rewrite A. unfold asprog.
    destruct (s (gen (firstn c l)) (x, 0)) as [[s1 i1]|e1]; cbn [rbind]; [|reflexivity].
    pose proof (user_computes s' d DO' (gen l) s1 (0 + c)) as B. rewrite B. cbn [Nat.add].
    assert (DL : dl (gen l) c d = skipn c l).
    { pose proof (dl_skipn (gen l) 0 c d) as X. cbn [Nat.add] in X. rewrite <- X, (dl_gen l (c + d)) by lia. rewrite <- LE. now rewrite firstn_all. }
    rewrite DL. unfold asprog. destruct (s' (gen (skipn c l)) (s1, 0)) as [[s2 i2]|e2]; reflexivity.
Qed.

Lemma computes_draws f F c : computes f F c -> draws_only c f.
Proof.
  intros H g g' st k k' A. rewrite (H g st k), (H g' st k').
  assert (E : dl g k c = dl g' k' c).
  { unfold dl. apply (nth_ext _ _ (half, 0) (half, 0)); [now rewrite !map_length, !seq_length|]. rewrite map_length, seq_length. intros i I.
    rewrite (nth_indep _ _ ((fun i => (unif g i, choose g i)) 0)) by (rewrite map_length, seq_length; exact I).
    rewrite (map_nth (fun i => (unif g i, choose g i)) (seq k c) 0 i), seq_nth by exact I.
    rewrite (nth_indep _ (half, 0) ((fun i => (unif g' i, choose g' i)) 0)) by (rewrite map_length, seq_length; exact I).
    rewrite (map_nth (fun i => (unif g' i, choose g' i)) (seq k' c) 0 i), seq_nth by exact I. destruct (A i I) as [-> ->]. reflexivity. }
  rewrite E. destruct (F st (dl g' k' c)) as [x|e]; cbn [rbind]; [now repeat split|reflexivity].
Qed.

Lemma package_fit b ev t full : sampled_net b -> NoDup (dkeys ev) -> incl (dkeys ev) (bnames b) -> full = true \/ unobserved b ev <> [] ->
  mass b (hard ev) [] <> 0%Qc ->
  let f := fun g => own t g b (unobserved b ev) full in
  draws_only (per_step t full (unobserved b ev)) f /\
  (forall g, rng_ok g -> minds b ev (f g) /\ never_stops b ev (f g)) /\
  exists D, 0 < D /\ forall N, 0 < N -> Nat.divide D N -> leaves_posterior N (per_step t full (unobserved b ev)) b ev f.
Proof.
  intros SN ND IN FU MP f. unfold f. clear f. rewrite <- (free_unobserved b ev) in *. pose proof (step_computes b t full (free_vars b ev) FU) as SC.
  split; [exact (computes_draws _ _ _ SC)|]. split.
  - intros g G. split.
    + intros st k st' k' C K E. destruct (step_legit b SN g G t full ev st k FU (conj C K)) as (s1 & k1 & E1 & L). unfold own in E. rewrite E1 in E. inversion E; subst. exact L.
    + intros st k e C K E. destruct (step_legit b SN g G t full ev st k FU (conj C K)) as (s1 & k1 & E1 & L). unfold own in E. congruence.
  - destruct (all_some b SN ev) as (D & P & H). exists D. split; [exact P|]. intros N N0 DN. destruct (H N DN) as (GF & MF & DF & VF).
    apply (user_invariant b SN ev ND IN N N0 _ _ MP). pose proof (step_invariant b ev N N0 SN GF MF DF VF t full FU) as SI.
    intros h. rewrite <- (SI h). apply qsum_map_ext. intros x _. f_equal. apply qsum_map_ext. intros l L. f_equal.
    pose proof (proj1 (Forall_forall _ _) (streams_length N _) l L) as LE. cbv beta in LE. unfold asprog. pose proof (SC (gen l) x 0) as A. cbv beta in A. unfold own.
    etransitivity; [exact (f_equal (fun r => match r with Ok (s, _) => Ok s | Err e => Err e end) A)|].
    rewrite (dl_gen l) by lia. rewrite <- LE, firstn_all. destruct (stepp b t full (free_vars b ev) x l); reflexivity.
Qed.
