(** A Gibbs chain that starts in an impossible state and never leaves it: C is the
    conjunction of A and B and observed to hold, the start has neither. *)
From Verif Require Import Base NDArray Factor Exact Spec OrderSpec BaseFacts FactorProofs SpecFacts Checks Instances ExampleNets
  Sampling MCSpec MCFacts MCProof MCTop MCChain MCForward MCMarginal MCChecks LawSpec LawChain.

Definition ft : list string := ["f"; "t"].
Definition both : bn := mkBN
  [mkN "A" ft [] [] (mkArr [2] [qq 1 2; qq 1 2]); mkN "B" ft [] [] (mkArr [2] [qq 1 2; qq 1 2]);
   mkN "C" ft [("A", ft); ("B", ft)] ["A"; "B"] (mkArr [2; 2; 2] [1; 1; 1; 0; 0; 0; 0; 1]%Qc)]
  ["A"; "B"; "C"] [("A", "C"); ("B", "C")].
Definition seen : dict string := [("C", "t")].
Lemma both_sampled : sampled_net both.
Proof. apply sampled_ok; vm_compute; reflexivity. Qed.
Lemma both_stochastic : stochastic_bn both.
Proof. apply stochasticb_ok; [exact (sn_bn _ both_sampled)|]. vm_compute. reflexivity. Qed.
Lemma both_topological : topological both ["A"; "B"; "C"].
Proof. apply topological_ok; [exact (sn_bn _ both_sampled)| |]; vm_compute; reflexivity. Qed.
Lemma both_possible : possible both seen = [[("A", "t"); ("B", "t"); ("C", "t")]].
Proof. vm_compute. reflexivity. Qed.

Definition sunk : dict string := [("C", "t"); ("A", "f"); ("B", "f")].

Section Run.
Variable g : rng.

Lemma value_of forward st k v n cs l : get_node both v = Ok n -> get_children both v = Ok cs ->
  match mapM (fun x => get_markov_prob n x cs (dset (dn_name n) x st) forward) (dn_values n) with Ok ws => qlist_eqb ws l | Err _ => false end = true ->
  sample_value g k n st cs forward = match roulette (dn_values n) l 0%Qc (unif g k * fold_left Qcplus l 0)%Qc with Some x => Ok (x, S k) | None => Err NonFinite end.
Proof. intros _ _ E. unfold sample_value. destruct (mapM _ _) as [ws|]; [|discriminate]. apply qlist_eqb_eq in E. now subst. Qed.

Lemma sunk_one k v : In v (free_vars both seen) -> change_one Gibbs g both (sunk, k) v = Ok (sunk, S k).
Proof.
  assert (R : forall x, roulette ft [0%Qc; 0%Qc] 0%Qc (x * fold_left Qcplus [0%Qc; 0%Qc] 0)%Qc = Some "f").
  { intros x. cbn [roulette ft fold_left]. replace (x * (0 + 0 + 0))%Qc with 0%Qc by ring. reflexivity. }
  intros V. cbn [change_one]. unfold gibbs_one.
  destruct (get_node both v) as [n|] eqn:E1; [|destruct V as [<-|[<-|[]]]; discriminate E1]. destruct (get_children both v) as [cs|] eqn:E2; [|destruct V as [<-|[<-|[]]]; discriminate E2].
  cbn [rbind fst snd]. rewrite (value_of false sunk k v n cs [0%Qc; 0%Qc] E1 E2).
  - assert (VN : dn_values n = ft) by (destruct V as [<-|[<-|[]]]; vm_compute in E1; injection E1 as <-; reflexivity). rewrite VN, R. cbn [rbind].
    destruct V as [<-|[<-|[]]]; reflexivity.
  - destruct V as [<-|[<-|[]]]; injection E1 as <-; injection E2 as <-; vm_compute; reflexivity.
Qed.

Lemma sunk_step full k : exists k', step Gibbs full g both (free_vars both seen) (sunk, k) = Ok (sunk, k').
Proof.
  unfold step. destruct full.
  - assert (I : incl (free_vars both seen) (free_vars both seen)) by apply incl_refl. revert I k. generalize (free_vars both seen) at 1 3. intros vs.
    induction vs as [|v vs IH]; intros I k; [now exists k|]. cbn [foldM]. pose proof (sunk_one k v (I v (or_introl eq_refl))) as E. unfold state in *. rewrite E. cbn [rbind].
    apply IH. intros z Z. apply I. now right.
  - cbn [fst snd]. destruct (choice_ok g k (free_vars both seen)) as (v & V & E); [discriminate|]. rewrite E. cbn [rbind]. exists (S (S k)). now apply sunk_one.
Qed.

Lemma sunk_chain burnIn full n k : exists l, generate_chain Gibbs burnIn full g both n (sunk, k) (Some seen) = Ok l /\ length l = n /\ Forall (eq sunk) l.
Proof.
  assert (F : forall st k, sunk = st -> exists st' k', step Gibbs full g both (free_vars both seen) (st, k) = Ok (st', k') /\ sunk = st').
  { intros st i <-. destruct (sunk_step full i) as (k' & E). now exists sunk, k'. }
  unfold generate_chain. cbn [vars_to_change rbind]. destruct (burn_ok _ (eq sunk) F burnIn sunk k eq_refl) as (s & k' & E & <-). rewrite E. cbn [rbind].
  exact (yields_ok _ (eq sunk) F n sunk k' eq_refl).
Qed.

Hypothesis G : forall k, (0 < unif g k)%Qc /\ (unif g k < 1)%Qc.

(** If the first two draws are below 1/2, sampling starts there. *)
Lemma sunk_start : (unif g 0 < qq 1 2)%Qc -> (unif g 1 < qq 1 2)%Qc -> get_sample g 0 both ["A"; "B"; "C"] seen = Ok (sunk, 2).
Proof.
  intros H0 H1.
  assert (R : forall x, (x < qq 1 2)%Qc -> roulette ft [qq 1 2; qq 1 2] 0%Qc (x * fold_left Qcplus [qq 1 2; qq 1 2] 0)%Qc = Some "f").
  { intros x X. cbn [roulette ft fold_left]. replace (0 + qq 1 2 + qq 1 2)%Qc with 1%Qc by qc. rewrite Qcmult_1_r, Qcplus_0_l.
    rewrite (proj2 (qleb_true x (qq 1 2))) by now apply Qclt_le_weak. reflexivity. }
  assert (O : forall st k v, In v ["A"; "B"] -> (st = [("C", "t")] \/ st = [("C", "t"); ("A", "f")]) -> (unif g k < qq 1 2)%Qc -> sample_one g both seen (st, k) v = Ok (dset v "f" st, S k)).
  { intros st k v V S H. unfold sample_one. replace (dmem v seen) with false by (destruct V as [<-|[<-|[]]]; reflexivity).
    destruct (get_node both v) as [n|] eqn:E1; [|destruct V as [<-|[<-|[]]]; discriminate E1]. destruct (get_children both v) as [cs|] eqn:E2; [|destruct V as [<-|[<-|[]]]; discriminate E2].
    cbn [rbind fst snd]. rewrite (value_of true st k v n cs [qq 1 2; qq 1 2] E1 E2).
    - assert (VN : dn_values n = ft) by (destruct V as [<-|[<-|[]]]; vm_compute in E1; injection E1 as <-; reflexivity). rewrite VN, R by exact H. reflexivity.
    - destruct V as [<-|[<-|[]]], S as [-> | ->]; injection E1 as <-; injection E2 as <-; vm_compute; reflexivity. }
  unfold get_sample. change (fold_left (fun d p => dset (fst p) (snd p) d) seen []) with [("C", "t")]. cbn [foldM].
  pose proof (O [("C", "t")] 0 "A" ltac:(cbn; tauto) ltac:(now left) H0) as E. pose proof (O [("C", "t"); ("A", "f")] 1 "B" ltac:(cbn; tauto) ltac:(now right) H1) as E'.
  unfold state in *. rewrite E. cbn [rbind]. change (dset "A" "f" [("C", "t")]) with [("C", "t"); ("A", "f")]. rewrite E'. reflexivity.
Qed.

Lemma sunk_estimate burnIn full n : n <> 0 -> (unif g 0 < qq 1 2)%Qc -> (unif g 1 < qq 1 2)%Qc ->
  exists f, mcmc_marginals Gibbs burnIn full n g both ["A"; "B"; "C"] ["A"] seen = Ok f /\ potential_at f [("A", "t")] = 0%Qc.
Proof.
  intros NZ H0 H1. assert (RG : rng_ok g) by (intros i; destruct (G i); split; [now apply Qclt_le_weak|assumption]).
  destruct (mcmc_frequencies both Gibbs burnIn full n g ["A"; "B"; "C"] ["A"] seen both_sampled RG both_topological) as (st & k & chain & f & GS & GC & L & E & R & _);
    [apply nodup_s_spec; reflexivity|apply legal_evb_ok; reflexivity|intros v [<-|[]]; now left|exact NZ|right; discriminate|].
  exists f. split; [exact E|]. destruct R as (_ & _ & _ & _ & _ & _ & R). rewrite R.
  2:{ split; [constructor; [now intros []|constructor]|]. split; [intros v; reflexivity|]. intros v x [H|[]]. inversion H; subst. right. now left. }
  rewrite (sunk_start H0 H1) in GS. inversion GS; subst st k. destruct (sunk_chain burnIn full n 2) as (l & GL & _ & A).
  assert (OK : Ok l = Ok chain) by (etransitivity; [symmetry; exact GL|exact GC]). inversion OK; subst l. clear OK.
  replace (hits [("A", "t")] chain) with 0; [change (qnat 0) with 0%Qc; unfold Qcdiv; ring|].
  clear - A. unfold hits. induction A as [|s l <- A IH]; [reflexivity|]. exact IH.
Qed.
End Run.
