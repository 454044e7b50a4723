(** Chains on a network whose second variable copies the first: no single change
    leads from one possible state to the other. *)
From Verif Require Import Base NDArray Factor Exact Spec OrderSpec BaseFacts FactorProofs SpecFacts Checks Instances ExampleNets
  Sampling MCSpec MCFacts MCProof MCTop MCChain MCForward MCMarginal MCChecks LawSpec LawChain.

(** Forward samples are possible. *)
Lemma sample_positive b g order st k' k : sampled_net b -> stochastic_bn b -> topological b order -> (forall k, (0 < unif g k)%Qc /\ (unif g k < 1)%Qc) ->
  get_sample g k b order [] = Ok (st, k') -> (0 < joint b st)%Qc.
Proof.
  intros SN ST TO G E. assert (RG : rng_ok g) by (intros i; destruct (G i); split; [now apply Qclt_le_weak|assumption]).
  destruct (sample_total b SN [] order TO g k RG) as (s & k2 & E2 & C & K); [constructor|discriminate|]. rewrite E2 in E. inversion E; subst.
  destruct (forward_box b SN [] order TO ST st (NoDup_nil _) C K) as (boxes & L & W & H). specialize (H g k G).
  assert (B : Forall2 between (map (unif g) (seq k (length boxes))) boxes) by (apply H; exists st, k'; auto).
  assert (J : qprod (map width boxes) = joint b st).
  { rewrite W. unfold joint. assert (FT : forall l, filter (fun n => negb (dmem (dn_name n) (@nil (string * string)))) l = l).
    { induction l as [|n l IH]; [reflexivity|]. cbn [filter]. change (negb (dmem (dn_name n) [])) with true. cbv iota. now rewrite IH. }
    now rewrite FT. }
  rewrite <- J. apply qprod_pos. clear - B. induction B as [|u [lo hi] us bs H B IH]; cbn [map]; constructor; [|exact IH].
  unfold width, between in *. cbn [fst snd] in *. destruct H as [H1 H2]. apply -> Qclt_minus_iff. now apply Qclt_le_trans with u.
Qed.

Definition copy : bn := mkBN [mkN "A" tf [] [] (mkArr [2] [qq 1 2; qq 1 2]); mkN "B" tf [("A", tf)] ["A"] (mkArr [2; 2] [1%Qc; 0%Qc; 0%Qc; 1%Qc])]
  ["A"; "B"] [("A", "B")].
Lemma copy_sampled : sampled_net copy.
Proof. apply sampled_ok; vm_compute; reflexivity. Qed.
Lemma copy_stochastic : stochastic_bn copy.
Proof. apply stochasticb_ok; [exact (sn_bn _ copy_sampled)|]. vm_compute. reflexivity. Qed.
Lemma copy_topological : topological copy ["A"; "B"].
Proof. apply topological_ok; [exact (sn_bn _ copy_sampled)| |]; vm_compute; reflexivity. Qed.

Lemma copy_equal st : complete copy st -> (0 < joint copy st)%Qc -> look st "A" = look st "B".
Proof.
  intros C J. destruct (C "A") as (a & A & Ia); [now left|]. destruct (C "B") as (x & B & Ib); [right; now left|].
  rewrite (look_dget _ _ _ A), (look_dget _ _ _ B). cbn in Ia, Ib.
  assert (E : joint copy st = joint copy [("A", a); ("B", x)]).
  { unfold joint. f_equal. apply map_ext_in. intros n Hn. apply entry_ext. intros v V.
    assert (V2 : v = "A" \/ v = "B") by (destruct Hn as [<-|[<-|[]]]; cbn in V; intuition).
    destruct V2; subst v; [rewrite (look_dget _ _ _ A)|rewrite (look_dget _ _ _ B)]; reflexivity. }
  rewrite E in J. destruct Ia as [<-|[<-|[]]], Ib as [<-|[<-|[]]]; try reflexivity; vm_compute in J; discriminate.
Qed.

Section Stuck.
Variable g : rng.
Hypothesis G : forall k, (0 < unif g k)%Qc /\ (unif g k < 1)%Qc.
Lemma G_ok : rng_ok g.
Proof. intros i. destruct (G i). split; [now apply Qclt_le_weak|assumption]. Qed.

Definition at_ (a : string) (st : dict string) : Prop := (legit copy [] st /\ (0 < joint copy st)%Qc) /\ look st "A" = a.

Lemma stuck_one t a st k v : at_ a st -> In v (free_vars copy []) -> exists st' k', change_one t g copy (st, k) v = Ok (st', k') /\ at_ a st'.
Proof.
  intros [L A] V. destruct (one_positive copy copy_sampled g G_ok (fun k => proj1 (G k)) t [] st k v L V) as (st' & k' & E & L' & J').
  exists st', k'. split; [exact E|]. split; [now split|].
  pose proof (copy_equal st (proj1 (proj1 L)) (proj2 L)) as Q. pose proof (copy_equal st' (proj1 L') J') as Q'.
  assert (VN : In v (bnames copy)) by now apply (free_spec copy copy_sampled) in V as [V _].
  assert (S : st' = st \/ exists x, st' = dset v x st).
  { destruct t; cbn [change_one] in E.
    - destruct (gibbs_total copy copy_sampled g st k v G_ok (proj1 (proj1 L)) VN) as (x & _ & E2). right. exists x. congruence.
    - destruct (mh_total copy copy_sampled g st k v (proj1 (proj1 L)) VN) as (x & _ & [E2|E2]); [right; exists x|left]; congruence. }
  destruct S as [->|[x ->]]; [exact A|]. destruct VN as [<-|[<-|[]]]; cbn [dn_name] in *.
  - rewrite Q', look_dset_neq by discriminate. now rewrite <- Q.
  - now rewrite look_dset_neq by discriminate.
Qed.

Lemma stuck_step t full a st k : at_ a st -> exists st' k', step t full g copy (free_vars copy []) (st, k) = Ok (st', k') /\ at_ a st'.
Proof.
  intros A. unfold step. destruct full.
  - assert (I : incl (free_vars copy []) (free_vars copy [])) by apply incl_refl. revert I st k A. generalize (free_vars copy []) at 1 3. intros vs.
    induction vs as [|v vs IH]; intros I st k A; [exists st, k; auto|]. cbn [foldM].
    destruct (stuck_one t a st k v A) as (s1 & k1 & E & A1); [apply I; now left|]. unfold state in *. rewrite E. cbn [rbind]. apply IH; [|exact A1]. intros z Z. apply I. now right.
  - cbn [fst snd]. destruct (choice_ok g k (free_vars copy [])) as (v & V & E); [discriminate|]. rewrite E. cbn [rbind]. now apply stuck_one.
Qed.

Lemma stuck_chain t burnIn full n a st k : at_ a st -> exists l, generate_chain t burnIn full g copy n (st, k) (Some []) = Ok l /\ length l = n /\ Forall (at_ a) l.
Proof.
  intros A. unfold generate_chain. cbn [vars_to_change rbind].
  destruct (burn_ok (step t full g copy (free_vars copy [])) (at_ a) (stuck_step t full a) burnIn st k A) as (s & k' & E & A'). rewrite E. cbn [rbind].
  exact (yields_ok (step t full g copy (free_vars copy [])) (at_ a) (stuck_step t full a) n s k' A').
Qed.

Lemma stuck_estimate t burnIn full n : n <> 0 -> exists f, mcmc_marginals t burnIn full n g copy ["A"; "B"] ["A"] [] = Ok f /\
  (potential_at f [("A", "t")] = 0%Qc \/ potential_at f [("A", "t")] = 1%Qc).
Proof.
  intros NZ. destruct (mcmc_frequencies copy t burnIn full n g ["A"; "B"] ["A"] [] copy_sampled G_ok copy_topological) as (st & k & chain & f & GS & GC & L & E & R & _);
    [constructor|discriminate|intros v [<-|[]]; now left|exact NZ|right; discriminate|].
  exists f. split; [exact E|]. destruct R as (_ & _ & _ & _ & _ & _ & R). rewrite R.
  2:{ split; [constructor; [now intros []|constructor]|]. split; [intros v; reflexivity|]. intros v x [H|[]]. inversion H; subst. now left. }
  pose proof (sample_positive copy g ["A"; "B"] st k 0 copy_sampled copy_stochastic copy_topological G GS) as J.
  destruct (sample_total copy copy_sampled [] ["A"; "B"] copy_topological g 0 G_ok) as (s & k2 & E2 & C & K); [constructor|discriminate|].
  rewrite GS in E2. inversion E2; subst s k2.
  destruct (stuck_chain t burnIn full n (look st "A") st k) as (l & GL & _ & A); [split; [split; [split|]|]; auto|].
  assert (OK : Ok l = Ok chain) by (etransitivity; [symmetry; exact GL|exact GC]). inversion OK; subst l. clear OK. clear - A L NZ.
  assert (H : hits [("A", "t")] chain = 0 \/ hits [("A", "t")] chain = n).
  { subst n. unfold hits. destruct (String.eqb_spec (look st "A") "t") as [T|T]; [right|left].
    - f_equal. clear - A T. induction A as [|s l H A IH]; [reflexivity|]. cbn [filter agrees forallb fst snd]. rewrite (proj2 H), T. cbn. now rewrite IH.
    - clear - A T. induction A as [|s l H A IH]; [reflexivity|]. cbn [filter agrees forallb fst snd]. rewrite (proj2 H).
      destruct (String.eqb_spec (look st "A") "t"); [contradiction|]. exact IH. }
  destruct H as [->| ->]; [left; change (qnat 0) with 0%Qc; unfold Qcdiv; ring|right]. apply Qcmult_inv_r. apply LawCount.qnat_neq0. lia.
Qed.
End Stuck.
