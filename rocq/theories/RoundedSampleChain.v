(** Chains in rounded arithmetic: the same run for almost all random numbers, and a long-run
    distribution close to the posterior. *)
From Coq Require Import Field.
From Verif Require Import Base NDArray Factor Exact Spec BaseFacts FactorProofs SpecFacts Sampling MCSpec MCFacts MCProof MCTop MCChain
  LawSpec LawCount LawKernel LawOne LawChain LawMean LawErgodic LawForward LawMCMC LawTop
  Rounded RoundedSpec RoundedProof RoundedTables RoundedTop RoundedDouble RoundedSample RoundedSampleSpec RoundedSampleDraw RoundedSampleOne.

(** ** Without rounding *)
Lemma foldM_ext A B (f g : A -> B -> res A) l a : (forall x y, f x y = g x y) -> foldM f l a = foldM g l a.
Proof. apply foldM_same. Qed.

Lemma exact_markov n x cs st f : @rmarkov unrounded n x cs st f = get_markov_prob n x cs st f.
Proof. reflexivity. Qed.

Lemma exact_wheel values ws : forall s r, @rroulette unrounded values ws s r = roulette values ws s r.
Proof.
  revert ws. induction values as [|x values IH]; intros [|w ws] s r; try reflexivity. cbn [rroulette roulette]. change (@rnd unrounded (s + w)%Qc) with (s + w)%Qc.
  destruct (qleb r (s + w)%Qc); [reflexivity|apply IH].
Qed.

Lemma exact_draw g k n st cs f : @rdraw_value unrounded g k n st cs f = sample_value g k n st cs f.
Proof.
  unfold rdraw_value, rsample_value, sample_value.
  change (mapM (fun x => @rmarkov unrounded n x cs (dset (dn_name n) x st) f) (dn_values n)) with (mapM (fun x => get_markov_prob n x cs (dset (dn_name n) x st) f) (dn_values n)).
  destruct (mapM _ _) as [ws|]; cbn [rbind]; [|reflexivity]. unfold rdraw, rtotal. rewrite exact_wheel. reflexivity.
Qed.

Lemma exact_one t g b a v : @rchange_one unrounded t g b a v = change_one t g b a v.
Proof.
  destruct t; cbn [rchange_one change_one].
  - unfold rgibbs_one, gibbs_one. destruct (get_node b v); cbn [rbind]; [|reflexivity]. destruct (get_children b v); cbn [rbind]; [|reflexivity]. now rewrite exact_draw.
  - reflexivity.
Qed.

Lemma exact_step t full g b vars a : @rstep unrounded t full g b vars a = step t full g b vars a.
Proof.
  unfold rstep, step. destruct full; [apply foldM_ext; intros; apply exact_one|]. destruct (choice g (snd a) vars) as [[v k]|]; cbn [rbind]; [|reflexivity]. apply exact_one.
Qed.

Lemma burn_ext f g n : (forall a, f a = g a) -> forall a, burn f n a = burn g n a.
Proof. intros H. induction n as [|n IH]; intros a; [reflexivity|]. cbn [burn]. rewrite H. destruct (g a); cbn [rbind]; [apply IH|reflexivity]. Qed.
Lemma yields_ext f g n : (forall a, f a = g a) -> forall a, yields f n a = yields g n a.
Proof. intros H. induction n as [|n IH]; intros a; [reflexivity|]. cbn [yields]. rewrite H. destruct (g a); cbn [rbind]; [now rewrite IH|reflexivity]. Qed.

Lemma exact_chain t burnIn full g b n init ev : @rgenerate_chain unrounded t burnIn full g b n init ev = generate_chain t burnIn full g b n init ev.
Proof.
  unfold rgenerate_chain, generate_chain. destruct (vars_to_change b ev) as [vars|]; cbn [rbind]; [|reflexivity].
  rewrite (burn_ext _ (step t full g b vars)) by (intros; apply exact_step). destruct (burn _ burnIn init); cbn [rbind]; [|reflexivity].
  apply yields_ext. intros. apply exact_step.
Qed.

Lemma exact_sample g k b order ev : @rget_sample unrounded g k b order ev = get_sample g k b order ev.
Proof.
  unfold rget_sample, get_sample. apply foldM_ext. intros a v. unfold rsample_one, sample_one. destruct (dmem v ev); [reflexivity|].
  destruct (get_node b v); cbn [rbind]; [|reflexivity]. destruct (get_children b v); cbn [rbind]; [|reflexivity]. now rewrite exact_draw.
Qed.

(** ** The states of a chain *)
Lemma chain_yields f a n : forall acc, (let* x := burn f a acc in yields f n x) = let* l := yields f (a + n) acc in Ok (skipn a l).
Proof.
  induction a as [|a IH]; intros acc; cbn [burn Nat.add rbind yields].
  - destruct (yields f n acc); reflexivity.
  - destruct (f acc) as [x|]; cbn [rbind]; [|reflexivity]. rewrite IH. destruct (yields f (a + n) x); reflexivity.
Qed.

Lemma yields_of_burn f n : forall acc r, burn f n acc = Ok r -> exists l, yields f n acc = Ok l /\ length l = n.
Proof.
  induction n as [|n IH]; intros acc r H; [exists []; auto|]. cbn [burn yields] in *. destruct (f acc) as [x|]; cbn [rbind] in *; [|discriminate].
  destruct (IH x r H) as (l & E & L). rewrite E. cbn [rbind]. exists (fst x :: l). split; [reflexivity|]. cbn [length]. now rewrite L.
Qed.

Lemma shows_at f burnIn n j acc r q : burn f (burnIn + n) acc = Ok r -> j < n ->
  shows q j (let* a := burn f burnIn acc in yields f n a) =
  match burn f (burnIn + S j) acc with Ok (s, _) => agrees q s | Err _ => false end.
Proof.
  intros H J. rewrite burn_add in H. rewrite burn_add. destruct (burn f burnIn acc) as [a|]; cbn [rbind] in *; [|discriminate].
  destruct (yields_of_burn f n a r H) as (l & E & L). destruct (yields_burn 1 Nat.lt_0_1 f n a l E j J) as (st & k & A & B). rewrite B, E. cbn [shows]. now rewrite A.
Qed.

Lemma ind_le a b : (a = true -> b = true) -> (ind a <= ind b)%Qc.
Proof. destruct a, b; intros H; cbn [ind]; try apply Qcle_refl; [specialize (H eq_refl); discriminate|discriminate]. Qed.

Lemma streams_firstn N m l c : In l (streams N m) -> c <= m -> In (firstn c l) (streams N c).
Proof.
  revert m l. induction c as [|c IH]; intros m l H L; [now left|]. destruct m as [|m]; [lia|]. cbn [streams] in H. apply in_flat_map in H as (d & D & H).
  apply in_map_iff in H as (l' & <- & H). cbn [firstn streams]. apply in_flat_map. exists d. split; [exact D|]. apply in_map. apply (IH m); [exact H|lia].
Qed.

Lemma gen_draws N m l : In l (streams N m) -> forall i, i < m -> In (unif (gen l) i, choose (gen l) i) (draws N).
Proof.
  intros H i I. pose proof (proj1 (Forall_forall _ _) (streams_length N m) l H) as L. cbv beta in L. apply streams_draws in H. rewrite Forall_forall in H.
  cbn [gen unif choose]. rewrite <- surjective_pairing. apply H. apply nth_In. lia.
Qed.

Section Bounds.
Variable N : nat.
Hypothesis N0 : 0 < N.
Notation NN := (qnat N * qnat N)%Qc.

Lemma powc_NN_pos m : (0 < powc NN m)%Qc.
Proof. apply powc_pos. apply Qcmult_pos; now apply qnat_pos. Qed.

(** Events that depend on a prefix of the draws. *)
Lemma chance_bound m c Q (B : list (Qc * nat) -> bool) d : c <= m -> (forall l, In l (streams N m) -> B (firstn c l) = false -> Q (gen l) = false) ->
  (qsum (map (fun l => ind (B l)) (streams N c)) <= powc NN c * d)%Qc -> (chance N m Q <= d)%Qc.
Proof.
  intros L H S. destruct (chance_sum N m Q) as [E|E]; [|lia]. apply (cancel_le (powc NN m)); [apply powc_NN_pos|]. rewrite Qcmult_comm. 
  apply Qcle_trans with (qsum (map (fun l => ind (Q (gen l))) (streams N m))); [rewrite <- E; apply Qcle_refl|].
  apply Qcle_trans with (qsum (map (fun l => ind (B (firstn c l))) (streams N m))).
  - apply sum_le. intros l Hl. apply ind_le. intros Z. destruct (B (firstn c l)) eqn:BE; [reflexivity|]. rewrite (H l Hl BE) in Z. discriminate.
  - rewrite (streams_prefix N c m (fun l => ind (B l)) L). replace (powc NN m * d)%Qc with (powc NN (m - c) * (powc NN c * d))%Qc.
    + apply Qcmult_le_l; [apply Qclt_le_weak, powc_NN_pos|exact S].
    + rewrite Qcmult_assoc, <- powc_add. do 2 f_equal. lia.
Qed.

Context {RD : Rounding}.
Variable b : bn.
Hypothesis NNb : nonneg_bn b.

Lemma differ_runs_false a c : a = c -> differ_runs a c = false.
Proof. intros ->. unfold differ_runs. now destruct (res_dec _ c c). Qed.

Lemma empty_step t g x : rstep t false g b [] x = Err IndexError /\ step t false g b [] x = Err IndexError.
Proof. split; reflexivity. Qed.

Theorem runs_agree t burnIn full n x ev m : (burnIn + n) * per_step t full (free_vars b ev) <= m ->
  (chance N m (fun g => differ_runs (rgenerate_chain t burnIn full g b n (x, 0%nat) (Some ev)) (generate_chain t burnIn full g b n (x, 0%nat) (Some ev))) <=
   qnat ((burnIn + n) * updates full (free_vars b ev)) * slip b N)%Qc.
Proof.
  intros L. set (vars := free_vars b ev) in *. set (c := per_step t full vars) in *.
  assert (D : full = true \/ vars <> [] \/ (full = false /\ vars = [])) by (destruct full; [now left|]; destruct vars; [now right; right|right; left; discriminate]).
  pose proof (slip_nonneg b N N0) as S0.
  destruct D as [D|[D|[-> E]]].
  3: { apply (chance_bound m 0 _ (fun _ => false) _ (Nat.le_0_l m)).
    - intros l _ _. apply differ_runs_false. unfold rgenerate_chain, generate_chain. cbn [vars_to_change rbind]. fold vars. rewrite E.
      rewrite (burn_ext _ (step t false (gen l) b [])) by reflexivity. destruct (burn _ burnIn _); cbn [rbind]; [|reflexivity]. now apply yields_ext.
    - cbn [streams map qsum ind powc]. rewrite Qcmult_1_l, Qcplus_0_l. apply Qcmult_nonneg; [apply qnat_nonneg|exact S0]. }
  all: assert (F : full = true \/ vars <> []) by auto; clear D;
    apply (chance_bound m ((burnIn + n) * c) _ (bad_run c (bad_step b t full vars) (stepp b t full vars) (burnIn + n) x) _ L).
  1,3: intros l Hl Z; apply differ_runs_false; unfold rgenerate_chain, generate_chain; cbn [vars_to_change rbind]; fold vars; rewrite !chain_yields;
      pose proof (proj1 (Forall_forall _ _) (streams_length N m) l Hl) as LL; cbv beta in LL;
      destruct (run_yields N N0 c _ _ _ _ _ _ (step_coupled b NNb N N0 t full vars) (step_computes b t full vars F) (rstep_computes b t full vars F) (burnIn + n) x (gen l) 0) as [_ EY];
      [intros i I; cbn [Nat.add]; apply (gen_draws N m l Hl); lia|rewrite dl_gen by lia; exact Z|exact (f_equal (fun r => rbind r (fun l => Ok (skipn burnIn l))) EY)].
  1,2: rewrite qnat_mul, <- Qcmult_assoc; refine (proj2 (run_coupled N c _ _ _ _ (burnIn + n) _ (step_coupled b NNb N N0 t full vars) x)); apply Qcmult_nonneg; [apply qnat_nonneg|exact S0].
Qed.
End Bounds.
