(** Chains of transition models with memory. *)
From Coq Require Import Field QArith.
From Verif Require Import Base NDArray Factor Exact Spec OrderSpec TreeSpec BaseFacts NDArrayFacts FactorFacts SpecFacts FactorSpec FactorProofs Sampling
  MCSpec MCFacts MCProof MCTop MCChain MCForward MCMarginal LawSpec LawCount LawKernel LawOne LawChain LawPost SampleErrSpec SampleErrProof
  Stream StreamProof UserSampling UserSpec UserProof MemSampling MemSpec.
Local Open Scope nat_scope.

Section Steps.
Context {M : Type}.
Variable f : M -> state * nat -> M * res (state * nat).

Lemma passes_burn n : forall m a m' r, burn_mem f n m a = (m', r) -> passes f n m a m' r.
Proof.
  induction n as [|n IH]; intros m a m' r E; cbn [burn_mem] in E; [inversion E; subst; constructor|].
  destruct (f m a) as [m1 [a1|e]] eqn:F; [eapply passes_more; [exact F|now apply IH]|]. inversion E; subst. now apply passes_stop.
Qed.

Lemma passes_add n k : forall m a m1 a1 m2 r, passes f n m a m1 (Ok a1) -> passes f k m1 a1 m2 r -> passes f (n + k) m a m2 r.
Proof.
  induction n as [|n IH]; intros m a m1 a1 m2 r P P'; inversion P; subst; [exact P'|]. cbn [Nat.add]. eapply passes_more; [eassumption|]. eapply IH; eauto.
Qed.

Lemma passes_add_stop n k : forall m a m1 e, passes f n m a m1 (Err e) -> passes f (n + k) m a m1 (Err e).
Proof.
  induction n as [|n IH]; intros m a m1 e P; inversion P; subst; cbn [Nat.add]; [now apply passes_stop|]. eapply passes_more; [eassumption|]. now apply IH.
Qed.

Variable b : bn.
Variable ev : state.
Hypothesis MA : minds_always b ev f.

Lemma passes_minds n : forall m st k m' st' k', complete b st -> keeps ev st -> passes f n m (st, k) m' (Ok (st', k')) -> complete b st' /\ keeps ev st'.
Proof.
  induction n as [|n IH]; intros m st k m' st' k' C K P; inversion P as [| |? ? ? m1 [s1 k1] ? ? F P']; subst; [now split|].
  destruct (MA _ _ _ _ _ _ C K F) as [C1 K1]. exact (IH _ _ _ _ _ _ C1 K1 P').
Qed.

Lemma counted_passes vv : (forall v l, In (v, l) vv -> In v (bnames b) /\ l = values_of b v) -> forall n m st k a, complete b st -> keeps ev st ->
  (exists m' e, counted_mem f vv n m (st, k) a = (m', Err e) /\ passes f n m (st, k) m' (Err e)) \/
  exists m' chain s' k', counted_mem f vv n m (st, k) a = (m', foldM (count_sample vv) chain a) /\ length chain = n /\
    passes f n m (st, k) m' (Ok (s', k')) /\ (exists a', foldM (count_sample vv) chain a = Ok a') /\
    forall j s, nth_error chain j = Some s -> complete b s /\ keeps ev s /\ exists mj kj, passes f (S j) m (st, k) mj (Ok (s, kj)).
Proof.
  intros VN. induction n as [|n IH]; intros m st k a C K; cbn [counted_mem].
  - right. exists m, [], st, k. split; [reflexivity|]. split; [reflexivity|]. split; [constructor|]. split; [eexists; reflexivity|]. intros [|j] s E; discriminate E.
  - destruct (f m (st, k)) as [m1 [[s1 k1]|e]] eqn:F.
    2:{ left. exists m1, e. split; [reflexivity|]. now apply passes_stop. }
    destruct (MA _ _ _ _ _ _ C K F) as [C1 K1]. cbn [fst]. destruct (count_fine b vv a s1 VN C1) as (a1 & E1). rewrite E1.
    destruct (IH m1 s1 k1 a1 C1 K1) as [(m' & e & E & P)|(m' & chain & s' & k' & E & L & P & (a' & A) & J)].
    + left. exists m', e. split; [exact E|]. eapply passes_more; [exact F|exact P].
    + right. exists m', (s1 :: chain), s', k'. cbn [foldM]. rewrite E1. cbn [rbind length]. split; [exact E|]. split; [now rewrite L|].
      split; [eapply passes_more; [exact F|exact P]|]. split; [eauto|]. intros [|j] s N; cbn [nth_error] in N.
      * inversion N; subst s. split; [exact C1|]. split; [exact K1|]. exists m1, k1. eapply passes_more; [exact F|constructor].
      * destruct (J j s N) as (CJ & KJ & mj & kj & PJ). split; [exact CJ|]. split; [exact KJ|]. exists mj, kj. eapply passes_more; [exact F|exact PJ].
Qed.
End Steps.

Section Net.
Context {M : Type}.
Variable b : bn.
Hypothesis SN : sampled_net b.
Variable ev : state.
Let WB := sn_bn b SN.
Variable order : list string.
Hypothesis TO : topological b order.
Hypothesis ND : NoDup (dkeys ev).
Hypothesis LE : legal_ev b ev.
Variable g : rng.
Hypothesis RG : rng_ok g.
Variable vs : list string.
Hypothesis IV : incl vs (bnames b).

Lemma marginals_mem (s : mem_step M) burnIn full n m : n <> 0 ->
  let f := s g b (unobserved b ev) full in
  minds_always b ev f ->
  exists init k m', get_sample g 0 b order ev = Ok (init, k) /\ complete b init /\ keeps ev init /\
  ((exists e, passes f (burnIn + n) m (init, k) m' (Err e) /\ mcmc_marginals_mem s burnIn full n g b order vs ev m = (m', Err e)) \/
   exists chain F a, length chain = n /\ passes f (burnIn + n) m (init, k) m' (Ok a) /\
     (forall j st, nth_error chain j = Some st -> complete b st /\ keeps ev st /\ exists mj k', passes f (burnIn + S j) m (init, k) mj (Ok (st, k'))) /\
     mcmc_marginals_mem s burnIn full n g b order vs ev m = (m', Ok F) /\
     reports b F vs (fun q => qnat (hits q chain) / qnat n)%Qc /\ qsum (data (pot F)) = 1%Qc).
Proof.
  intros NZ f MA. destruct (sample_total b SN ev order TO g 0 RG ND LE) as (init & k & GS & C & K). exists init, k.
  destruct (collect_values b WB vs [] IV) as (vv & EV & NV & KV & HV); [discriminate|constructor|].
  assert (VN : forall v l, In (v, l) vv -> In v (bnames b) /\ l = values_of b v).
  { intros v l Hl. pose proof (In_dget v l vv NV Hl) as D. split; [|now apply HV]. apply IV. apply dget_Some_key, KV in D. destruct D as [[]|D]; exact D. }
  unfold mcmc_marginals_mem. rewrite GS. cbn [rbind]. rewrite EV. cbn [rbind vars_to_change]. rewrite (free_unobserved b ev). fold f.
  destruct (burn_mem f burnIn m (init, k)) as [m1 [[st i]|e]] eqn:B; apply passes_burn in B.
  2:{ exists m1. split; [reflexivity|]. split; [exact C|]. split; [exact K|]. left. exists e. split; [now apply passes_add_stop|reflexivity]. }
  destruct (passes_minds f b ev MA _ _ _ _ _ _ _ C K B) as [C1 K1].
  destruct (counted_passes f b ev MA vv VN n m1 st i (np_zeros (map (fun p => length (snd p)) vv)) C1 K1) as [(m2 & e & E & P)|(m2 & chain & s' & k' & E & L & P & (a' & A) & J)].
  { exists m2. split; [reflexivity|]. split; [exact C|]. split; [exact K|]. left. exists e. rewrite E. split; [eapply passes_add; eauto|reflexivity]. }
  exists m2. split; [reflexivity|]. split; [exact C|]. split; [exact K|]. right. rewrite E, A.
  destruct (samples_named vv chain) as (F & FS & G & VO & FV & SUM & POT).
  - exact NV.
  - intros v l Hl. destruct (VN v l Hl) as [Hv ->]. destruct (node_of b SN v Hv) as (n' & _ & _ & _ & -> & _ & Q). exact Q.
  - intros ->. cbn in L. now subst.
  - intros s1 Hs v l Hl. destruct (VN v l Hl) as [Hv ->]. apply In_nth_error in Hs as (j & Hj). now apply (proj1 (J j s1 Hj)).
  - exists chain, F, (s', k'). split; [exact L|]. split; [eapply passes_add; eauto|]. split.
    { intros j s1 Hj. destruct (J j s1 Hj) as (C2 & K2 & mj & kj & PJ). split; [exact C2|]. split; [exact K2|]. exists mj, kj. eapply passes_add; eauto. }
    split.
    { f_equal. assert (FS' : (let* counts := foldM (count_sample vv) chain (np_zeros (map (fun p => length (snd p)) vv)) in
        if qeqb (asum counts) 0%Qc then Err NonFinite else Ok (mkF (amap (fun x => (x / asum counts)%Qc) counts) (dkeys vv) vv)) = Ok F) by exact FS.
      rewrite A in FS'. exact FS'. }
    split; [|exact SUM].
    assert (VS : forall v, In v (vorder F) <-> In v vs) by (intros v; rewrite VO, KV; cbn; tauto).
    assert (DV : forall v, In v (vorder F) -> dget v (fvals F) = Some (values_of b v)).
    { intros v Hv. rewrite VO in Hv. rewrite FV. destruct (dget_key v vv Hv) as (l & D). rewrite D. f_equal. now apply HV. }
    split; [apply G|]. split; [exact VS|]. split; [exact DV|]. split; [apply G|]. split.
    { rewrite (gf_shape _ G). apply map_ext_in. intros v Hv. unfold fvalues. now rewrite (DV v Hv). }
    split; [apply G|]. intros q (Q1 & Q2 & Q3). rewrite POT.
    + rewrite L. reflexivity.
    + exact Q1.
    + intros v. rewrite Q2, <- VS, VO. tauto.
    + intros v Hv. assert (Hq : In v (dkeys q)) by (apply Q2, VS, Hv). destruct (dget_key v q Hq) as (x & D). exists x.
      split; [exact D|]. unfold fvalues. rewrite (DV v Hv). apply (Q3 v x). now apply dget_In.
Qed.
End Net.

(** ** Models without memory *)
Section Forget.
Context {M : Type}.
Variable s : user_step.

Lemma burn_forget g b vars full n : forall (m : M) a, burn_mem (forgetful s g b vars full) n m a = (m, burn (s g b vars full) n a).
Proof.
  induction n as [|n IH]; intros m a; cbn [burn_mem burn]; [reflexivity|]. unfold forgetful at 1. destruct (s g b vars full a) as [a'|e]; cbn [rbind]; [apply IH|reflexivity].
Qed.
Lemma counted_forget g b vars full vv n : forall (m : M) acc a, counted_mem (forgetful s g b vars full) vv n m acc a = (m, counted (s g b vars full) vv n acc a).
Proof.
  induction n as [|n IH]; intros m acc a; cbn [counted_mem counted]; [reflexivity|]. unfold forgetful at 1. destruct (s g b vars full acc) as [acc'|e]; cbn [rbind]; [|reflexivity].
  destruct (count_sample vv a (fst acc')) as [a'|e]; cbn [rbind]; [apply IH|reflexivity].
Qed.
Lemma marginals_forget burnIn full n g b order vs ev (m : M) :
  mcmc_marginals_mem (forgetful s) burnIn full n g b order vs ev m = (m, mcmc_marginals_with (Some s) burnIn full n g b order vs ev).
Proof.
  unfold mcmc_marginals_mem, mcmc_marginals_with. destruct (get_sample g 0 b order ev) as [init|e]; cbn [rbind]; [|reflexivity].
  match goal with |- context [foldM ?F vs []] => destruct (foldM F vs []) as [vv|e] end; cbn [rbind]; [|reflexivity]. destruct (vars_to_change b (Some ev)) as [vars|e]; cbn [rbind]; [|reflexivity]. cbn [sampler_model].
  rewrite burn_forget. destruct (burn (s g b vars full) burnIn init) as [acc|e]; cbn [rbind]; [|reflexivity].
  rewrite counted_forget. destruct (counted _ _ _ _ _) as [c|e]; cbn [rbind]; reflexivity.
Qed.
Lemma calls_forget burnIn full n b order cs (m : M) :
  mcmc_calls (forgetful s) burnIn full n b order cs m =
  (m, map (fun c => mcmc_marginals_with (Some s) burnIn full n (fst (fst c)) b order (snd (fst c)) (snd c)) cs).
Proof.
  induction cs as [|[[g vs] ev] cs IH]; cbn [mcmc_calls map fst snd]; [reflexivity|]. rewrite marginals_forget, IH. reflexivity.
Qed.
End Forget.

Lemma calls_last {M} (s : mem_step M) burnIn full n b order cs g vs ev : forall m m' rs, mcmc_calls s burnIn full n b order cs m = (m', rs) ->
  mcmc_calls s burnIn full n b order (cs ++ [(g, vs, ev)]) m =
  (fst (mcmc_marginals_mem s burnIn full n g b order vs ev m'), rs ++ [snd (mcmc_marginals_mem s burnIn full n g b order vs ev m')]).
Proof.
  induction cs as [|[[g1 vs1] ev1] cs IH]; intros m m' rs E; cbn [mcmc_calls app] in *.
  - inversion E; subst. now destruct (mcmc_marginals_mem s burnIn full n g b order vs ev m').
  - destruct (mcmc_marginals_mem s burnIn full n g1 b order vs1 ev1 m) as [m1 r1]. destruct (mcmc_calls s burnIn full n b order cs m1) as [m2 r2] eqn:C.
    inversion E; subst. now rewrite (IH _ _ _ C).
Qed.
