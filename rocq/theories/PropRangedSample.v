(** C84: the range of floating-point numbers and sampling. *)
From Coq Require Import ZArith Field.
From Verif Require Import Base BaseFacts NDArray NDArrayFacts Factor Exact Spec OrderSpec FactorFacts FactorProofs Checks Instances ExampleNets Sampling MCSpec MCFacts MCProof MCTop MCChain MCForward MCChecks
  LawSpec LawCount LawKernel LawOne LawChain LawMean LawErgodic LawForward LawMCMC LawEstimate LawTop LawLarge LawSpread LawLinked
  Rounded RoundedSpec RoundedProof RoundedTop RoundedDouble Ranged RangedSpec RangedDouble RoundedSample RoundedSampleSpec RoundedSampleOne RoundedSampleChain RoundedSampleCount
  RangedSample RangedSampleSpec RangedSampleProof RangedSampleTop PropLaw PropRoundedSample.

(** With unlimited range the program is that of RoundedSample.v. *)
Theorem C84_same_program {RD : Rounding} {AD : Adding} :
  (forall g k b order ev, get_sample_with rnd g k b order ev = rget_sample g k b order ev) /\
  (forall t burnIn full g b n init ev, chain_with rnd t burnIn full g b n init ev = rgenerate_chain t burnIn full g b n init ev) /\
  (forall t burnIn full n g b order vs ev, marginals_with rnd t burnIn full n g b order vs ev = rmcmc_marginals t burnIn full n g b order vs ev).
Proof. split; [exact sample_rnd|]. split; [exact chain_rnd|exact marginals_rnd]. Qed.

(** ** If the range suffices for one update, every run is that of unlimited range:
    results and exceptions, for every network, evidence, start and length. *)
Theorem C84_sample {RD : Rounding} {LM : Limits} P U b g order ev k : tame P b [] -> (1 <= U)%Qc -> grainy U g -> (draw_need P U b 1 <= top)%Qc ->
  limited_sample g k b order ev = rget_sample g k b order ev.
Proof. intros T U1 G. exact (sample_eq b P U T U1 g G order ev k). Qed.

Theorem C84_chain {RD : Rounding} {LM : Limits} P U b g t burnIn full n init ev : tame P b [] -> (1 <= U)%Qc -> grainy U g -> (chain_need t P U b <= top)%Qc ->
  limited_chain t burnIn full g b n init ev = rgenerate_chain t burnIn full g b n init ev.
Proof. intros T U1 G. exact (chain_eq b P U T U1 g G t burnIn full n init ev). Qed.

Theorem C84_marginals {RD : Rounding} {LM : Limits} {AD : Adding} P U b g t burnIn full n order vs ev : tame P b [] -> (1 <= U)%Qc -> grainy U g ->
  (draw_need P U b 1 <= top)%Qc -> (chain_need t P U b <= top)%Qc -> 0 < n -> counts_exactly n -> (qnat n <= top)%Qc ->
  limited_marginals t burnIn full n g b order vs ev = rmcmc_marginals t burnIn full n g b order vs ev.
Proof. exact (marginals_eq P U b g t burnIn full n order vs ev). Qed.

(** The random numbers of C52 and C83 meet the hypothesis. *)
Theorem C84_grain N m l : 0 < N -> In l (streams N m) -> grainy (qnat (2 * N)) (gen l).
Proof. exact (gen_grainy N m l). Qed.

(** ** So what holds of rounding (C83) holds of arithmetic of limited range: the
    run is the one in exact arithmetic but for a small probability ... *)
Theorem C84_chain_same {RD : Rounding} {LM : Limits} P b t burnIn full n x ev N m : 0 < N -> tame P b [] -> (chain_need t P (qnat (2 * N)) b <= top)%Qc ->
  (burnIn + n) * per_step t full (free_vars b ev) <= m ->
  (chance N m (fun g => differ_runs (limited_chain t burnIn full g b n (x, 0%nat) (Some ev)) (generate_chain t burnIn full g b n (x, 0%nat) (Some ev))) <=
   qnat ((burnIn + n) * updates full (free_vars b ev)) * slip b N)%Qc.
Proof.
  intros N0 T C M. rewrite (chance_eq N m _ (fun g => differ_runs (rgenerate_chain t burnIn full g b n (x, 0%nat) (Some ev)) (generate_chain t burnIn full g b n (x, 0%nat) (Some ev)))).
  - apply C83_chain_same; [exact N0|exact (tame_nonneg P b T)|exact M].
  - intros l L. rewrite (C84_chain P (qnat (2 * N)) b (gen l) t burnIn full n _ _ T (qnat_le 1 (2 * N) ltac:(lia)) (gen_grainy N m l N0 L) C). reflexivity.
Qed.

(** ... no run fails or enters an impossible state ... *)
Theorem C84_possible {RD : Rounding} {LM : Limits} P U b ev t burnIn full g n x : sampled_net b -> rng_ok g -> full = true \/ free_vars b ev <> [] -> complete b x -> keeps ev x ->
  tame P b [] -> (1 <= U)%Qc -> grainy U g -> (chain_need t P U b <= top)%Qc ->
  exists l, limited_chain t burnIn full g b n (x, 0%nat) (Some ev) = Ok l /\ length l = n /\
    forall s, In s l -> complete b s /\ keeps ev s /\ ((forall k, (0 < unif g k)%Qc) -> (0 < joint b x)%Qc -> (0 < joint b s)%Qc).
Proof. intros SN G F C K T U1 GR CN. rewrite (C84_chain P U b g t burnIn full n _ _ T U1 GR CN). now apply C83_chain. Qed.

(** ... and in the long run the states are those of the posterior distribution. *)
Theorem C84_posterior b ev full : sampled_net b -> connected b ev -> NoDup (dkeys ev) -> incl (dkeys ev) (bnames b) -> full = true \/ free_vars b ev <> [] ->
  exists D r e, 0 < D /\ 0 < r /\ (0 < e)%Qc /\ (e <= 1)%Qc /\ forall (RD : Rounding) (LM : Limits) P N t burnIn n j q m x, 0 < N -> Nat.divide D N -> In x (possible b ev) -> j < n ->
    (burnIn + S j) * per_step t full (free_vars b ev) <= m -> tame P b [] -> (chain_need t P (qnat (2 * N)) b <= top)%Qc ->
    let p := chance N m (fun g => shows q j (limited_chain t burnIn full g b n (x, 0%nat) (Some ev))) in
    let d := (LawSpec.power (1 - e) ((burnIn + S j) / r)%nat + (1 + 1) * (qnat (updates full (free_vars b ev)) * slip b N) * (qnat r / e))%Qc in
    (posterior b (hard ev) q - d <= p)%Qc /\ (p <= posterior b (hard ev) q + d)%Qc.
Proof.
  intros SN CO ND IN F. destruct (C83_posterior b ev full SN CO ND IN F) as (D & r & e & D0 & r0 & e0 & e1 & H). exists D, r, e. repeat (split; [assumption|]).
  intros RD LM P N t burnIn n j q m x N0 DN X J M T C. rewrite (chance_eq N m _ (fun g => shows q j (rgenerate_chain t burnIn full g b n (x, 0%nat) (Some ev)))).
  - exact (H RD N t burnIn n j q m x N0 DN X J M).
  - intros l L. rewrite (C84_chain P (qnat (2 * N)) b (gen l) t burnIn full n _ _ T (qnat_le 1 (2 * N) ltac:(lia)) (gen_grainy N m l N0 L) C). reflexivity.
Qed.

(** MCMC.marginals is consistent: the range has to suffice for one update and for the
    number of samples, and need not grow with the accuracy otherwise. *)
Theorem C84_consistent b ev order vs full delta eps : sampled_net b -> stochastic_bn b -> connected b ev -> starts_possible b ev -> topological b order -> NoDup (dkeys ev) ->
  legal_ev b ev -> incl (dkeys ev) (bnames b) -> incl vs (bnames b) -> full = true \/ free_vars b ev <> [] -> (0 < delta)%Qc -> (0 < eps)%Qc ->
  exists D A K, 0 < D /\ 0 < A /\ forall (RD : Rounding) (LM : Limits) (AD : Adding) P N t burnIn n q m, (ulp <= / qnat A)%Qc -> A <= N -> Nat.divide D N -> K <= n -> 0 < n -> counts_exactly n ->
    is_inst b vs q -> length (filter (fun v => negb (dmem v ev)) order) + (burnIn + n) * per_step t full (free_vars b ev) <= m ->
    tame P b [] -> (draw_need P (qnat (2 * N)) b 1 <= top)%Qc -> (chain_need t P (qnat (2 * N)) b <= top)%Qc -> (qnat n <= top)%Qc ->
    (chance N m (fun g => far (posterior b (hard ev) q) delta (estimate q (limited_marginals t burnIn full n g b order vs ev))) <= eps)%Qc.
Proof.
  intros SN ST CO SP TO ND LE IN VS F D0 E0. destruct (C83_consistent b ev order vs full delta eps SN ST CO SP TO ND LE IN VS F D0 E0) as (D & A & K & P0 & A0 & H).
  exists D, A, K. split; [exact P0|]. split; [exact A0|]. intros RD LM AD P N t burnIn n q m U AN DN KN n0 C Q M T T1 T2 T3. assert (N0 : 0 < N) by lia.
  rewrite (chance_eq N m _ (fun g => far (posterior b (hard ev) q) delta (estimate q (rmcmc_marginals t burnIn full n g b order vs ev)))).
  - exact (H RD AD N t burnIn n q m U AN DN KN n0 C Q M).
  - intros l L. rewrite (C84_marginals P (qnat (2 * N)) b (gen l) t burnIn full n order vs ev T (qnat_le 1 (2 * N) ltac:(lia)) (gen_grainy N m l N0 L) T1 T2 n0 C T3). reflexivity.
Qed.

(** ** Without room the sampler is wrong: in IEEE doubles the weights of both values of A
    come out as 0, and the wheel takes the first value, which the evidence excludes;
    Metropolis-Hastings accepts every proposal.  All states of the run are impossible,
    though the start is possible and exact arithmetic stays there. *)
Definition tiny : Qc := Q2Qc (QArith_base.Qmake 1 (2 ^ 600)).
Definition vanish : bn := mkBN
  [mkN "A" ["t"; "f"] [] [] (mkArr [2] [qq 1 2; qq 1 2]);
   mkN "B" ["t"; "f"] [("A", ["t"; "f"])] ["A"] (mkArr [2; 2] [0; tiny; 1; 1 - tiny])%Qc;
   mkN "C" ["t"; "f"] [("A", ["t"; "f"])] ["A"] (mkArr [2; 2] [tiny; tiny; 1 - tiny; 1 - tiny])%Qc] ["A"; "B"; "C"] [("A", "B"); ("A", "C")].
Definition halves : rng := {| unif := fun _ => qq 1 2; choose := fun _ => 0 |}.
Theorem C84_range_refuted : exists b ev x g, sampled_net b /\ stochastic_bn b /\ rng_ok g /\ (forall k, (0 < unif g k)%Qc) /\ complete b x /\ keeps ev x /\ (0 < joint b x)%Qc /\
  forall t, exists l, @limited_chain double ieee t 1 true g b 3 (x, 0) (Some ev) = Ok l /\ length l = 3 /\ (forall s, In s l -> joint b s = 0%Qc) /\
    @rgenerate_chain double t 1 true g b 3 (x, 0) (Some ev) = Ok [x; x; x] /\ generate_chain t 1 true g b 3 (x, 0) (Some ev) = Ok [x; x; x].
Proof.
  exists vanish, [("B", "t"); ("C", "t")], [("A", "f"); ("B", "t"); ("C", "t")], halves.
  assert (SN : sampled_net vanish) by (apply sampled_ok; vm_compute; reflexivity). split; [exact SN|]. split; [apply stochasticb_ok; [exact (sn_bn _ SN)|vm_compute; reflexivity]|].
  split; [intros k; split; [apply qleb_true; vm_compute; reflexivity|reflexivity]|]. split; [intros k; reflexivity|]. split; [apply completeb_ok; vm_compute; reflexivity|].
  split; [intros v x H; cbn in H; cbn; destruct (String.eqb_spec v "A") as [->|NA]; [discriminate H|]; destruct (String.eqb v "B"); [exact H|]; destruct (String.eqb v "C"); [exact H|discriminate H]|].
  split; [reflexivity|]. intros t. set (s := [("A", "t"); ("B", "t"); ("C", "t")]). exists [s; s; s]. split; [destruct t; vm_compute; reflexivity|]. split; [reflexivity|].
  split; [intros u [<-|[<-|[<-|[]]]]; apply Qc_is_canon; vm_compute; reflexivity|]. destruct t; split; vm_compute; reflexivity.
Qed.

(** The hypotheses for [loop5], Gibbs and Metropolis-Hastings, in IEEE doubles with the
    random numbers of random.random() (multiples of 2^-53); [vanish] is far from them. *)
Definition hundred : Qc := qq 100 1.
Definition python_U : Qc := Q2Qc (QArith_base.inject_Z (2 ^ 53)).
Example C84_example : tame hundred loop5 [] /\ (1 <= python_U)%Qc /\ grainy python_U halves /\ fanout loop5 = 2 /\ widest loop5 = 2 /\
  (@draw_need double hundred python_U loop5 1 <= @top double ieee)%Qc /\ (forall t, (@chain_need double t hundred python_U loop5 <= @top double ieee)%Qc) /\
  @counts_exactly double 1000 /\ (qnat 1000 <= @top double ieee)%Qc /\
  (forall t, (@chain_need double t hundred (qnat (2 * 1000)) loop5 <= @top double ieee)%Qc) /\
  (@top double ieee < @chain_need double Gibbs (Q2Qc (QArith_base.inject_Z (2 ^ 600))) 1 vanish)%Qc.
Proof.
  split; [split; [discriminate|split; [|intros v q []]]; intros n I; apply (amids_ok hundred); revert n I; apply Forall_forall; vm_compute; repeat constructor|].
  split; [discriminate|]. split; [intros k; right; split; apply qleb_true; vm_compute; reflexivity|]. split; [reflexivity|]. split; [reflexivity|].
  split; [apply qleb_true; vm_compute; reflexivity|]. split; [intros []; apply qleb_true; vm_compute; reflexivity|]. split; [apply C83_counts; discriminate|].
  split; [apply qleb_true; vm_compute; reflexivity|]. split; [intros []; apply qleb_true; vm_compute; reflexivity|]. apply qltb_true; vm_compute; reflexivity.
Qed.

Print Assumptions C84_same_program.
Print Assumptions C84_sample.
Print Assumptions C84_chain.
Print Assumptions C84_marginals.
Print Assumptions C84_grain.
Print Assumptions C84_chain_same.
Print Assumptions C84_possible.
Print Assumptions C84_posterior.
Print Assumptions C84_consistent.
Print Assumptions C84_range_refuted.
