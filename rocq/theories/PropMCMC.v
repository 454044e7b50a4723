(** Properties C27-C32 and C47: sampling and Markov chains. *)
From Verif Require Import Base NDArray Factor Exact Spec OrderSpec TreeSpec BaseFacts FactorSpec FactorProofs Checks Instances ExampleNets
  Sampling MCSpec MCFacts MCProof MCTop MCChain MCForward MCMarginal MCChecks.
From Verif Require Network NetSpec NetView Node.

(** Constant random numbers, for examples. *)
Definition flat (u : Qc) (c : nat) : rng := mkRng (fun _ => u) (fun _ => c).
Lemma flat_ok u c : qleb 0%Qc u = true -> qltb u 1%Qc = true -> rng_ok (flat u c).
Proof. intros A B k. cbn. split; [now apply qleb_true|now apply qltb_true]. Qed.

Lemma net_sampled : sampled_net net.
Proof. apply sampled_ok; vm_compute; reflexivity. Qed.

(** One variable, whose first value is impossible. *)
Definition sure : bn := mkBN [mkN "Z" tf [] [] (mkArr [2] [0; 1]%Qc)] ["Z"] [].
Lemma sure_sampled : sampled_net sure.
Proof. apply sampled_ok; vm_compute; reflexivity. Qed.

Definition start : state := [("D", "t"); ("B", "y"); ("A", "f"); ("C", "t")].
Lemma start_complete : complete net start.
Proof. apply completeb_ok. vm_compute. reflexivity. Qed.

(** The snapshot of a network built through the API is one these theorems speak
    about, and the nodes' probabilities are the snapshot's. *)
Theorem C27_network_view w : NetSpec.reached w -> NetView.tidy w -> nonneg_bn (Network.view w) ->
  sampled_net (Network.view w) /\
  forall v i n x st, NetSpec.holds w v i n ->
    Node.single_probability (Network.whp w) n x st = sp (Network.snapshot_node (Network.whp w) n) x st.
Proof.
  intros R T NN. split; [now apply view_sampled|]. intros v i n x st H. exact (single_probability_shown w v i n x st R H).
Qed.

(** ** C27.  Partial: at r = 0.0 exactly the first value is returned, whatever its
    weight (refuted below). *)
Theorem C27_roulette_partial g k n st cs fwd ws i :
  Forall2 (fun x w => get_markov_prob n x cs (dset (dn_name n) x st) fwd = Ok w) (dn_values n) ws ->
  Forall (fun w => 0 <= w)%Qc ws -> (0 < qsum ws)%Qc -> NoDup (dn_values n) ->
  (0 < unif g k)%Qc -> (unif g k < 1)%Qc -> i < length (dn_values n) ->
  (sample_value g k n st cs fwd = Ok (nth i (dn_values n) "", S k) <->
   between (unif g k * qsum ws)%Qc (upto ws i, upto ws (S i))).
Proof. intros F NN Q ND U0 U1 I. apply (sv_iff g k n st cs fwd ws); auto. now apply mapM_ok. Qed.

Theorem C27_zero_weight_partial g k n st cs fwd ws i :
  Forall2 (fun x w => get_markov_prob n x cs (dset (dn_name n) x st) fwd = Ok w) (dn_values n) ws ->
  Forall (fun w => 0 <= w)%Qc ws -> (0 < qsum ws)%Qc -> NoDup (dn_values n) ->
  (0 < unif g k)%Qc -> (unif g k < 1)%Qc -> i < length (dn_values n) -> nth i ws 0%Qc = 0%Qc ->
  sample_value g k n st cs fwd <> Ok (nth i (dn_values n) "", S k).
Proof.
  intros F NN Q ND U0 U1 I Z H. assert (L : length ws = length (dn_values n)) by (symmetry; clear - F; induction F; cbn; congruence).
  apply (C27_roulette_partial g k n st cs fwd ws i F NN Q ND U0 U1 I) in H. destruct H as [A B]. cbn [fst snd] in A, B.
  rewrite upto_lt_nth, Z in B by (now rewrite L). replace (upto ws i + 0)%Qc with (upto ws i) in B by ring. exact (Qclt_not_le _ _ A B).
Qed.

Theorem C27_always_a_value g k n st cs fwd ws :
  Forall2 (fun x w => get_markov_prob n x cs (dset (dn_name n) x st) fwd = Ok w) (dn_values n) ws ->
  Forall (fun w => 0 <= w)%Qc ws -> (0 <= unif g k)%Qc -> (unif g k < 1)%Qc -> dn_values n <> [] ->
  exists x, In x (dn_values n) /\ sample_value g k n st cs fwd = Ok (x, S k).
Proof. intros F NN U0 U1 NE. apply (sv_total g k n st cs fwd ws); auto. now apply mapM_ok. Qed.

Theorem C27_zero_draw_refuted : exists g n st w0 ws,
  rng_ok g /\ Forall2 (fun x w => get_markov_prob n x [] (dset (dn_name n) x st) false = Ok w) (dn_values n) (w0 :: ws) /\
  NoDup (dn_values n) /\ qsum (w0 :: ws) = 1%Qc /\ w0 = 0%Qc /\
  sample_value g 0 n st [] false = Ok (nth 0 (dn_values n) "", 1).
Proof.
  exists (flat 0%Qc 0), (mkN "Z" tf [] [] (mkArr [2] [0; 1]%Qc)), [], 0%Qc, [1%Qc].
  split; [apply flat_ok; reflexivity|]. split; [repeat constructor|]. split; [apply nodup_s_spec; reflexivity|].
  split; [qc|]. split; [reflexivity|]. vm_compute. reflexivity.
Qed.

Example C27_example :
  let g := flat (qq 1 2) 0 in let st := [("A", "f")] in let ws := [qq 1 10; qq 3 10; qq 6 10] in
  Forall2 (fun x w => get_markov_prob nB x [] (dset (dn_name nB) x st) true = Ok w) (dn_values nB) ws /\
  Forall (fun w => 0 <= w)%Qc ws /\ (0 < qsum ws)%Qc /\ NoDup (dn_values nB) /\ (0 < unif g 0)%Qc /\ (unif g 0 < 1)%Qc /\
  sample_value g 0 nB st [] true = Ok ("z", 1) /\
  Forall2 (fun x w => get_markov_prob nB x [] (dset (dn_name nB) x [("A", "t")]) true = Ok w) (dn_values nB) [qq 1 2; qq 1 2; 0%Qc].
Proof.
  cbn zeta. split; [repeat constructor|]. split; [repeat constructor; discriminate|]. split; [reflexivity|].
  split; [apply nodup_s_spec; reflexivity|]. split; [reflexivity|]. split; [reflexivity|]. split; [vm_compute; reflexivity|].
  repeat constructor.
Qed.

(** ** C28.  [elsewhere b v st] does not mention v. *)
Theorem C28_weights b st v : sampled_net b -> complete b st -> In v (bnames b) ->
  exists n cs, get_node b v = Ok n /\ get_children b v = Ok cs /\
    forall x, In x (values_of b v) -> exists w, get_markov_prob n x cs (dset v x st) false = Ok w /\
      joint b (dset v x st) = (w * elsewhere b v st)%Qc.
Proof. exact (markov_weights b st v). Qed.

(** The Gibbs update moves to the i-th value exactly for random numbers in an
    interval whose length is the conditional probability given the other variables. *)
Theorem C28_gibbs_conditional b g st k v i : sampled_net b -> complete b st -> In v (bnames b) ->
  (0 < unif g k)%Qc -> (unif g k < 1)%Qc -> (0 < qsum (column b v st))%Qc -> i < length (values_of b v) ->
  (gibbs_one g b (st, k) v = Ok (dset v (nth i (values_of b v) "") st, S k) <->
   between (unif g k * qsum (column b v st))%Qc (upto (column b v st) i, upto (column b v st) (S i))).
Proof. intros SN. exact (gibbs_rule b SN g st k v i). Qed.

Theorem C28_positive_column b st v : sampled_net b -> complete b st -> In v (bnames b) -> (0 < joint b st)%Qc ->
  (0 < qsum (column b v st))%Qc.
Proof. intros SN. exact (column_positive b SN v st). Qed.

Example C28_example : sampled_net net /\ complete net start /\ In "B" (bnames net) /\ (0 < joint net start)%Qc /\
  column net "B" start = [qq 12 1000; qq 72 1000; qq 216 1000] /\
  gibbs_one (flat (qq 1 4) 0) net (start, 0) "B" = Ok (dset "B" "y" start, 1) /\
  gibbs_one (flat (qq 1 100) 0) net (start, 0) "B" = Ok (dset "B" "x" start, 1).
Proof.
  split; [exact net_sampled|]. split; [exact start_complete|]. split; [cbn; tauto|]. split; [reflexivity|].
  split; [qlist|]. split; vm_compute; reflexivity.
Qed.

(** ** C29.  [proposes g k vals y]: the generator's draw number k picks y. *)
Theorem C29_detailed_balance b st v x y : sampled_net b -> complete b st -> In v (bnames b) ->
  dget v st = Some x -> In y (values_of b v) ->
  exists a a', (0 <= a <= 1)%Qc /\ (0 <= a' <= 1)%Qc /\ (joint b st * a = joint b (dset v y st) * a')%Qc /\
    (forall g k, proposes g k (values_of b v) y -> mh_one g b (st, k) v =
       Ok (if qleb (unif g (S k)) a then dset v y st else st, S (S k))) /\
    (forall g k, proposes g k (values_of b v) x -> mh_one g b (dset v y st, k) v =
       Ok (if qleb (unif g (S k)) a' then dset v x (dset v y st) else dset v y st, S (S k))).
Proof. intros SN. exact (mh_balance b SN st v x y). Qed.

(** The move happens exactly if u * joint(current) <= joint(proposed), also from
    impossible states, where only the tables of v and its children can be zero. *)
Theorem C29_acceptance b g st k v y : sampled_net b -> complete b st -> In v (bnames b) -> In y (values_of b v) ->
  elsewhere b v st <> 0%Qc -> rng_ok g -> proposes g k (values_of b v) y ->
  mh_one g b (st, k) v =
    Ok (if qleb (unif g (S k) * joint b st)%Qc (joint b (dset v y st)) then dset v y st else st, S (S k)).
Proof. intros SN. rewrite elsewhere_outside. exact (mh_rule b SN g st k v y). Qed.

Example C29_acceptance_example : exists st, sampled_net net /\ complete net st /\ elsewhere net "B" st <> 0%Qc /\ joint net st = 0%Qc /\
  rng_ok (flat (qq 1 2) 1) /\ proposes (flat (qq 1 2) 1) 0 (values_of net "B") "y" /\
  mh_one (flat (qq 1 2) 1) net (st, 0) "B" = Ok (dset "B" "y" st, 2).
Proof.
  exists [("A", "t"); ("B", "z"); ("C", "t"); ("D", "t")]. split; [exact net_sampled|]. split; [apply completeb_ok; reflexivity|].
  split; [intros E; apply (f_equal this) in E; vm_compute in E; discriminate|]. split; [qc|]. split; [apply flat_ok; reflexivity|].
  split; [split; [discriminate|reflexivity]|]. vm_compute. reflexivity.
Qed.

(** Partial: for random numbers that are not exactly 0.0. *)
Theorem C29_stays_possible_partial b g t burnIn full N init k ev l : sampled_net b -> rng_ok g -> (forall k, (0 < unif g k)%Qc) ->
  complete b init -> keeps ev init -> (0 < joint b init)%Qc -> full = true \/ free_vars b ev <> [] ->
  generate_chain t burnIn full g b N (init, k) (Some ev) = Ok l -> Forall (fun st => 0 < joint b st)%Qc l.
Proof. intros SN RG POS. exact (chain_positive b SN g RG POS t burnIn full N init k ev l). Qed.

Theorem C29_zero_draw_refuted : exists b g st st', sampled_net b /\ rng_ok g /\ complete b st /\ (0 < joint b st)%Qc /\
  mh_one g b (st, 0) "Z" = Ok (st', 2) /\ joint b st' = 0%Qc.
Proof.
  exists sure, (flat 0%Qc 0), [("Z", "f")], [("Z", "t")]. split; [exact sure_sampled|]. split; [apply flat_ok; reflexivity|].
  split; [apply completeb_ok; reflexivity|]. split; [reflexivity|]. split; [vm_compute; reflexivity|]. qc.
Qed.

Example C29_example : sampled_net net /\ complete net start /\ dget "B" start = Some "y" /\ In "x" (values_of net "B") /\
  proposes (flat (qq 1 2) 0) 0 (values_of net "B") "x" /\
  mh_one (flat (qq 1 2) 0) net (start, 0) "B" = Ok (start, 2) /\
  mh_one (flat (qq 1 10) 0) net (start, 0) "B" = Ok (dset "B" "x" start, 2) /\
  (forall k, (0 < unif (flat (qq 1 2) 0) k)%Qc).
Proof.
  split; [exact net_sampled|]. split; [exact start_complete|]. split; [reflexivity|]. split; [cbn; tauto|].
  split; [split; [discriminate|reflexivity]|]. split; [vm_compute; reflexivity|]. split; [vm_compute; reflexivity|]. intros k. reflexivity.
Qed.

(** ** C30.  Partial: with one variable changed per step there must be a free
    variable, and evidence must be given. *)
Theorem C30_chain_partial b g t burnIn full N init k ev : sampled_net b -> rng_ok g -> complete b init -> keeps ev init ->
  full = true \/ free_vars b ev <> [] ->
  exists l, generate_chain t burnIn full g b N (init, k) (Some ev) = Ok l /\ length l = N /\
    Forall (fun st => complete b st /\ keeps ev st) l.
Proof. intros SN RG. exact (chain_legit b SN g RG t burnIn full N init k ev). Qed.

Theorem C30_no_free_variable_refuted : exists b g ev, sampled_net b /\ rng_ok g /\ complete b ev /\ keeps ev ev /\
  forall t, generate_chain t 0 false g b 1 (ev, 0) (Some ev) = Err IndexError.
Proof.
  exists net, (flat (qq 1 2) 0), start. split; [exact net_sampled|]. split; [apply flat_ok; reflexivity|].
  split; [exact start_complete|]. split; [intros v x H; exact H|]. intros t. vm_compute. reflexivity.
Qed.

Theorem C30_default_evidence_refuted : exists b g init, sampled_net b /\ rng_ok g /\ complete b init /\
  forall t full, generate_chain t 0 full g b 1 (init, 0) None = Err TypeError.
Proof.
  exists net, (flat (qq 1 2) 0), start. split; [exact net_sampled|]. split; [apply flat_ok; reflexivity|].
  split; [exact start_complete|]. intros t full. vm_compute. reflexivity.
Qed.

Example C30_example : let ev := [("D", "t")] in let g := mkRng (fun k => qq 1 2) (fun k => k) in
  sampled_net net /\ rng_ok g /\ complete net start /\ keeps ev start /\ free_vars net ev = ["A"; "B"; "C"] /\
  exists l, generate_chain Gibbs 2 false g net 3 (start, 0) (Some ev) = Ok l /\ length l = 3.
Proof.
  cbn zeta. split; [exact net_sampled|]. split; [intros k; split; [discriminate|reflexivity]|]. split; [exact start_complete|].
  split; [apply keepsb_ok; reflexivity|]. split; [reflexivity|]. eexists. split; vm_compute; reflexivity.
Qed.

(** ** C31 *)
Theorem C31_sample_legal b g k order ev : sampled_net b -> rng_ok g -> topological b order -> NoDup (dkeys ev) -> legal_ev b ev ->
  exists st k', get_sample g k b order ev = Ok (st, k') /\ complete b st /\ keeps ev st.
Proof. intros SN RG TO. exact (sample_total b SN ev order TO g k RG). Qed.

Theorem C31_box b order ev x : sampled_net b -> stochastic_bn b -> topological b order -> NoDup (dkeys ev) ->
  complete b x -> keeps ev x ->
  exists boxes, length boxes = length (filter (fun v => negb (dmem v ev)) order) /\
    qprod (map width boxes) = qprod (map (fun n => entry n x) (filter (fun n => negb (dmem (dn_name n) ev)) (bnodes b))) /\
    forall g k, (forall k, (0 < unif g k)%Qc /\ (unif g k < 1)%Qc) ->
      ((exists st k', get_sample g k b order ev = Ok (st, k') /\ forall v, In v (bnames b) -> dget v st = dget v x) <->
       Forall2 between (map (unif g) (seq k (length boxes))) boxes).
Proof. intros SN ST TO. exact (forward_box b SN ev order TO ST x). Qed.

Lemma net_stochastic : stochastic_bn net.
Proof. apply stochasticb_ok; [exact (sn_bn net net_sampled)|]. vm_compute. reflexivity. Qed.

Lemma net_topological : topological net ["A"; "B"; "C"; "D"].
Proof. apply topological_ok; [exact (sn_bn net net_sampled)| |]; vm_compute; reflexivity. Qed.

Example C31_example : let ev := [("B", "y")] in
  sampled_net net /\ stochastic_bn net /\ topological net ["A"; "B"; "C"; "D"] /\ NoDup (dkeys ev) /\ legal_ev net ev /\
  complete net start /\ keeps ev start /\
  get_sample (flat (qq 1 2) 0) 0 net ["A"; "B"; "C"; "D"] ev = Ok ([("B", "y"); ("A", "f"); ("C", "f"); ("D", "f")], 3).
Proof.
  cbn zeta. split; [exact net_sampled|]. split; [exact net_stochastic|]. split; [exact net_topological|].
  split; [apply nodup_s_spec; reflexivity|]. split; [apply legal_evb_ok; reflexivity|]. split; [exact start_complete|].
  split; [apply keepsb_ok; reflexivity|]. vm_compute. reflexivity.
Qed.

(** ** C32.  Partial: as in C30, some variable has to be free unless all variables
    change in every step. *)
Theorem C32_frequencies_partial b t burnIn full N g order vs ev : sampled_net b -> rng_ok g -> topological b order ->
  NoDup (dkeys ev) -> legal_ev b ev -> incl vs (bnames b) -> N <> 0 -> full = true \/ free_vars b ev <> [] ->
  exists init k chain f, get_sample g 0 b order ev = Ok (init, k) /\
    generate_chain t burnIn full g b N (init, k) (Some ev) = Ok chain /\ length chain = N /\
    mcmc_marginals t burnIn full N g b order vs ev = Ok f /\
    reports b f vs (fun q => qnat (hits q chain) / qnat N)%Qc /\ qsum (data (pot f)) = 1%Qc.
Proof. exact (mcmc_frequencies b t burnIn full N g order vs ev). Qed.

Theorem C32_all_evidence_refuted : exists b g order ev, sampled_net b /\ rng_ok g /\ topological b order /\ NoDup (dkeys ev) /\
  legal_ev b ev /\ forall t, mcmc_marginals t 0 false 1 g b order ["A"] ev = Err IndexError.
Proof.
  exists net, (flat (qq 1 2) 0), ["A"; "B"; "C"; "D"], start. split; [exact net_sampled|]. split; [apply flat_ok; reflexivity|].
  split; [exact net_topological|]. split; [apply nodup_s_spec; reflexivity|]. split; [apply legal_evb_ok; reflexivity|].
  intros t. vm_compute. reflexivity.
Qed.

Example C32_example : let ev := [("D", "t")] in
  sampled_net net /\ rng_ok (flat (qq 1 2) 1) /\ topological net ["A"; "B"; "C"; "D"] /\ NoDup (dkeys ev) /\ legal_ev net ev /\ incl ["B"] (bnames net) /\
  free_vars net ev <> [] /\
  exists f, mcmc_marginals Gibbs 2 false 5 (flat (qq 1 2) 1) net ["A"; "B"; "C"; "D"] ["B"] ev = Ok f.
Proof.
  cbn zeta. split; [exact net_sampled|]. split; [apply flat_ok; reflexivity|]. split; [exact net_topological|]. split; [apply nodup_s_spec; reflexivity|].
  split; [apply legal_evb_ok; reflexivity|]. split; [apply inclb_ok; reflexivity|]. split; [discriminate|].
  eexists. vm_compute. reflexivity.
Qed.

(** ** C47: all collected dicts are the one that the chain keeps changing, so they
    all show the last state. *)
Theorem C47_collected_are_last b g t burnIn full N init k ev l : generate_chain t burnIn full g b N (init, k) (Some ev) = Ok l ->
  N <> 0 -> listed_chain t burnIn full g b N (init, k) ev = Ok (repeat (last l []) N).
Proof. exact (listed_same t burnIn full g b N init k ev l). Qed.

Theorem C47_collected_refuted : exists b g init ev l l', sampled_net b /\ rng_ok g /\ complete b init /\ keeps ev init /\
  generate_chain Gibbs 0 true g b 2 (init, 0) (Some ev) = Ok l /\ listed_chain Gibbs 0 true g b 2 (init, 0) ev = Ok l' /\ l <> l'.
Proof.
  exists net, (mkRng (fun k => if Nat.ltb k 4 then qq 1 10 else qq 9 10) (fun k => 0)), start, [].
  eexists. eexists. split; [exact net_sampled|]. split.
  { intros k. cbn. destruct (Nat.ltb k 4); split; try discriminate; reflexivity. }
  split; [exact start_complete|]. split; [intros v x H; discriminate H|]. split; [vm_compute; reflexivity|].
  split; [vm_compute; reflexivity|]. discriminate.
Qed.

Print Assumptions C27_network_view.
Print Assumptions C27_roulette_partial.
Print Assumptions C27_zero_weight_partial.
Print Assumptions C27_always_a_value.
Print Assumptions C27_zero_draw_refuted.
Print Assumptions C28_weights.
Print Assumptions C28_gibbs_conditional.
Print Assumptions C28_positive_column.
Print Assumptions C29_detailed_balance.
Print Assumptions C29_acceptance.
Print Assumptions C29_stays_possible_partial.
Print Assumptions C29_zero_draw_refuted.
Print Assumptions C30_chain_partial.
Print Assumptions C30_no_free_variable_refuted.
Print Assumptions C30_default_evidence_refuted.
Print Assumptions C31_sample_legal.
Print Assumptions C31_box.
Print Assumptions C32_frequencies_partial.
Print Assumptions C32_all_evidence_refuted.
Print Assumptions C47_collected_are_last.
Print Assumptions C47_collected_refuted.
