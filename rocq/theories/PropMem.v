(** Property C93: transition models that keep a state of their own (MemSampling.v): what one step leaves in the object
    is there for the next, also in the next call. *)
From Coq Require Import Field.
From Verif Require Import Base NDArray Factor Exact Spec OrderSpec TreeSpec BaseFacts FactorProofs Checks Instances ExampleNets
  Sampling MCSpec MCFacts MCProof MCTop MCChain MCForward MCChecks MCMarginal LawSpec LawCount LawKernel LawOne LawChain LawPost
  SampleErrSpec SampleErrProof Stream StreamProof PropMCMC UserSampling UserSpec UserProof UserBalance PropUser MemSampling MemSpec MemProof.

(** The result lists the relative frequencies in the states number burnIn+1 to burnIn+N of the chain; the memory after the
    call is what burnIn+N steps leave, or the steps up to the one that raised an exception. *)
Theorem C93_frequencies M b g burnIn full N order vs ev (s : mem_step M) m : sampled_net b -> rng_ok g -> topological b order -> NoDup (dkeys ev) -> legal_ev b ev ->
  incl vs (bnames b) -> N <> 0 -> minds_always b ev (s g b (unobserved b ev) full) ->
  let f := s g b (unobserved b ev) full in
  exists init k m', get_sample g 0 b order ev = Ok (init, k) /\ complete b init /\ keeps ev init /\
  ((exists e, passes f (burnIn + N) m (init, k) m' (Err e) /\ mcmc_marginals_mem s burnIn full N g b order vs ev m = (m', Err e)) \/
   exists chain F a, length chain = N /\ passes f (burnIn + N) m (init, k) m' (Ok a) /\
     (forall j st, nth_error chain j = Some st -> complete b st /\ keeps ev st /\ exists mj k', passes f (burnIn + S j) m (init, k) mj (Ok (st, k'))) /\
     mcmc_marginals_mem s burnIn full N g b order vs ev m = (m', Ok F) /\
     reports b F vs (fun q => qnat (hits q chain) / qnat N)%Qc /\ qsum (data (pot F)) = 1%Qc).
Proof. intros SN RG TO ND LE IV NZ MA. exact (marginals_mem b SN ev order TO ND LE g RG vs IV s burnIn full N m NZ MA). Qed.

(** After any calls with the same object the next one starts with the memory they left. *)
Theorem C93_history M (s : mem_step M) burnIn full N b order cs g vs ev m m' rs : mcmc_calls s burnIn full N b order cs m = (m', rs) ->
  mcmc_calls s burnIn full N b order (cs ++ [(g, vs, ev)]) m =
  (fst (mcmc_marginals_mem s burnIn full N g b order vs ev m'), rs ++ [snd (mcmc_marginals_mem s burnIn full N g b order vs ev m')]).
Proof. exact (calls_last s burnIn full N b order cs g vs ev m m' rs). Qed.

(** With models that keep nothing, such as the two of the package, no call influences another: each returns what it
    would return alone. *)
Theorem C93_independent M s burnIn full N b order cs (m : M) :
  mcmc_calls (forgetful s) burnIn full N b order cs m =
  (m, map (fun c => mcmc_marginals_with (Some s) burnIn full N (fst (fst c)) b order (snd (fst c)) (snd c)) cs).
Proof. exact (calls_forget s burnIn full N b order cs m). Qed.

(** ** Examples *)
(** A model that counts its steps, and raises an exception at the fifth. *)
Definition counting (limit : nat) : mem_step nat := fun g b vars full m a =>
  if Nat.eqb m limit then (m, Err ValueError) else (S m, own Gibbs g b vars full a).

Lemma counting_minds limit b ev g full : sampled_net b -> NoDup (dkeys ev) -> incl (dkeys ev) (bnames b) -> full = true \/ unobserved b ev <> [] ->
  mass b (hard ev) [] <> 0%Qc -> rng_ok g -> minds_always b ev (counting limit g b (unobserved b ev) full).
Proof.
  intros SN ND IN FU MP RG m st k m' st' k' C K E. unfold counting in E. destruct (Nat.eqb m limit); [discriminate|].
  apply (f_equal snd) in E. cbn [snd] in E. destruct (C91_package b ev Gibbs full SN ND IN FU MP) as (_ & MI & _). exact (proj1 (MI g RG) st k st' k' C K E).
Qed.

Example C93_example : let g := flat (qq 1 2) 1 in let o := ["A"; "B"; "C"; "D"] in let ev := [("D", "t")] in
  sampled_net net /\ rng_ok g /\ topological net o /\ NoDup (dkeys ev) /\ legal_ev net ev /\ incl ["A"] (bnames net) /\
  minds_always net ev (counting 5 g net (unobserved net ev) false) /\
  (exists F, mcmc_marginals_mem (counting 5) 1 false 2 g net o ["A"] ev 0 = (3, Ok F)) /\
  mcmc_marginals_mem (counting 5) 1 false 2 g net o ["A"] ev 3 = (5, Err ValueError).
Proof.
  cbv zeta. set (ev := [("D", "t")]). assert (ND : NoDup (dkeys ev)) by (apply nodup_s_spec; reflexivity).
  assert (IN : incl (dkeys ev) (bnames net)) by (apply inclb_ok; reflexivity).
  assert (MP : mass net (hard ev) [] <> 0%Qc) by (intros E; apply (f_equal this) in E; vm_compute in E; discriminate).
  assert (U : unobserved net ev <> []) by (vm_compute; discriminate).
  assert (RG : rng_ok (flat (qq 1 2) 1)) by (apply flat_ok; reflexivity).
  split; [exact net_sampled|]. split; [exact RG|]. split; [exact net_topological|]. split; [exact ND|]. split; [apply legal_evb_ok; reflexivity|].
  split; [apply inclb_ok; reflexivity|]. split; [exact (counting_minds 5 net ev _ false net_sampled ND IN (or_intror U) MP RG)|].
  split; [eexists; vm_compute; reflexivity|vm_compute; reflexivity].
Qed.

(** With memory the same call may give something else the second time. *)
Theorem C93_independent_refuted : exists b g order ev (s : mem_step nat) F, sampled_net b /\ rng_ok g /\ topological b order /\ legal_ev b ev /\
  minds_always b ev (s g b (unobserved b ev) false) /\
  snd (mcmc_calls s 1 false 2 b order [(g, ["A"], ev); (g, ["A"], ev)] 0) = [Ok F; Err ValueError].
Proof.
  exists net, (flat (qq 1 2) 1), ["A"; "B"; "C"; "D"], [("D", "t")], (counting 5). eexists. destruct C93_example as (A & B & C & D & E & F & G & _).
  split; [exact A|]. split; [exact B|]. split; [exact C|]. split; [exact E|]. split; [exact G|]. vm_compute. reflexivity.
Qed.

(** A model that adapts to what it has seen: the first step stays and remembers the side of the coin, the next ones stay if
    it was t and turn the coin otherwise. *)
Definition adapting : mem_step (option string) := fun g b vars full m a =>
  match m with
  | None => (Some (look (fst a) "Z"), Ok a)
  | Some x => (m, if String.eqb x "t" then Ok a else turned g b vars full a)
  end.

(** Whatever the memory, the step leaves the posterior as it is; two steps do not. *)
Theorem C93_adaptive_refuted : exists b (s : mem_step (option string)) m h r, sampled_net b /\
  (forall m1, leaves_posterior 1 0 b [] (fun g a => snd (s g b ["Z"] true m1 a))) /\
  (forall g x, In x (worlds b []) -> exists m', passes (s g b ["Z"] true) 2 m (x, 0) m' (r x)) /\
  qsum (map (fun x => posterior b (hard []) x * worth h (r x))%Qc (worlds b [])) <> qsum (map (fun x => posterior b (hard []) x * h x)%Qc (worlds b [])).
Proof.
  set (b := coin (qq 1 2) (qq 1 2)). exists b, adapting, None, (fun st => if String.eqb (look st "Z") "t" then 1%Qc else 0%Qc), (fun _ => Ok ([("Z", "t")], 0)).
  split; [exact (proj1 C91_balanced_example)|]. split; [|split].
  - assert (STAY : leaves_posterior 1 0 b [] (fun g a => Ok a)).
    { intros h. apply qsum_map_ext. intros x _. f_equal. unfold expectation. cbn [streams map qsum length worth]. rewrite Qcplus_0_r.
      replace (qnat 1) with 1%Qc by (apply Qc_is_canon; reflexivity). field. discriminate. }
    intros [x|]; cbn [adapting snd]; [|exact STAY]. destruct (String.eqb x "t"); [exact STAY|].
    apply (C91_balanced b [] 1 0); [exact (proj1 C91_balanced_example)|lia| |]; apply C91_balanced_example.
  - intros g x [<-|[<-|[]]]; eexists; (eapply passes_more; [reflexivity|]); (eapply passes_more; [reflexivity|]); apply passes_none.
  - intros E. apply (f_equal this) in E. vm_compute in E. discriminate E.
Qed.

Print Assumptions C93_frequencies.
Print Assumptions C93_history.
Print Assumptions C93_independent.
Print Assumptions C93_independent_refuted.
Print Assumptions C93_adaptive_refuted.
