(** Properties C52 and C53 without the condition that all possible states are linked:
    what the chains and estimates approach then. *)
From Verif Require Import Base NDArray Factor Exact Spec OrderSpec BaseFacts FactorProofs Checks Instances ExampleNets
  Sampling MCSpec MCFacts MCProof MCTop MCChain MCForward MCChecks LawSpec LawCount LawKernel LawOne LawChain LawPost LawMean LawErgodic LawForward LawMCMC LawEstimate LawTop LawStuck LawLarge LawSpread LawLinked LawClass LawClassTop LawSunk PropMCMC PropLaw.

(** ** C52: which possible states are linked can be told, it is an equivalence, ... *)
Theorem C52_components b ev : sampled_net b -> incl (dkeys ev) (bnames b) ->
  (exists c, tells b ev c) /\
  (forall x y, In x (possible b ev) -> linked b ev x y -> In y (possible b ev) /\ linked b ev y x) /\
  (forall x y z, linked b ev x y -> linked b ev y z -> linked b ev x z).
Proof.
  intros SN IN. split; [now apply tells_some|]. split; [|intros x y z; apply linked_trans].
  intros x y X H. split; [now apply (linked_in b ev x)|now apply linked_sym].
Qed.

(** ... every chain approaches the posterior among the states linked to its start, ... *)
Theorem C52_component_law b ev c full : sampled_net b -> tells b ev c -> NoDup (dkeys ev) -> incl (dkeys ev) (bnames b) -> full = true \/ free_vars b ev <> [] ->
  exists D r e, 0 < D /\ 0 < r /\ (0 < e)%Qc /\ (e <= 1)%Qc /\ forall N t burnIn n j q m x, 0 < N -> Nat.divide D N -> In x (possible b ev) -> j < n ->
    (burnIn + S j) * per_step t full (free_vars b ev) <= m ->
    let p := chance N m (fun g => shows q j (generate_chain t burnIn full g b n (x, 0%nat) (Some ev))) in
    let d := power (1 - e)%Qc ((burnIn + S j) / r) in
    (local_posterior b ev c x q - d <= p)%Qc /\ (p <= local_posterior b ev c x q + d)%Qc.
Proof.
  intros SN TC ND IN F. destruct (all_some b SN ev) as (D & P & H). destruct (mixing_some b SN ev c TC full F) as (r & e & MX).
  exists D, r, e. split; [exact P|]. split; [apply MX|]. split; [apply MX|]. split; [apply MX|]. intros N t burnIn n j q m x N0 DN X J M.
  destruct (H N DN) as (GF & MF & DF & VF). now apply (local_chain b SN ev IN c TC N N0 GF MF DF VF t full F r e MX).
Qed.

(** ... which is the posterior itself if all possible states are linked, ... *)
Theorem C52_component_connected b ev c x q : sampled_net b -> tells b ev c -> NoDup (dkeys ev) -> incl (dkeys ev) (bnames b) -> connected b ev ->
  In x (possible b ev) -> local_posterior b ev c x q = posterior b (hard ev) q.
Proof. intros SN TC ND IN CO X. now apply local_connected. Qed.

(** ... and the estimate approaches the mean of these numbers over the forward samples
    it may start from, if these are possible states. *)
Theorem C52_component_estimate_partial b ev c order vs full : sampled_net b -> stochastic_bn b -> tells b ev c -> starts_possible b ev -> topological b order -> NoDup (dkeys ev) ->
  legal_ev b ev -> incl (dkeys ev) (bnames b) -> incl vs (bnames b) -> full = true \/ free_vars b ev <> [] ->
  exists D r e, 0 < D /\ 0 < r /\ (0 < e)%Qc /\ (e <= 1)%Qc /\ forall N t burnIn n q m, 0 < N -> Nat.divide D N -> 0 < n -> is_inst b vs q ->
    length (filter (fun v => negb (dmem v ev)) order) + (burnIn + n) * per_step t full (free_vars b ev) <= m ->
    let E := expectation N m (fun g => estimate q (mcmc_marginals t burnIn full n g b order vs ev)) in
    let mu := qsum (map (fun y => start_chance b ev y * local_posterior b ev c y q)%Qc (possible b ev)) in
    let d := power (1 - e)%Qc (burnIn / r) in
    (mu - d <= E)%Qc /\ (E <= mu + d)%Qc.
Proof.
  intros SN ST TC SP TO ND LE IN VS F. destruct (and_some _ _ (fwd_some b SN ev) (all_some b SN ev)) as (D & P & H).
  destruct (mixing_some b SN ev c TC full F) as (r & e & MX).
  exists D, r, e. split; [exact P|]. split; [apply MX|]. split; [apply MX|]. split; [apply MX|]. intros N t burnIn n q m N0 DN n0 Q M.
  destruct (H N DN) as (FF & GF & MF & DF & VF). now apply (local_estimate b SN ev ND IN c TC N N0 GF MF DF VF t full F r e MX ST order TO LE FF SP vs VS).
Qed.

(** The condition on the starts cannot be dropped, even if all possible states are
    linked: started in an impossible state, the Gibbs sampler may stay there for ever. *)
Theorem C52_impossible_start_refuted : exists b ev order q, sampled_net b /\ stochastic_bn b /\ topological b order /\ NoDup (dkeys ev) /\ legal_ev b ev /\
  incl (dkeys ev) (bnames b) /\ is_inst b ["A"] q /\ connected b ev /\ possible b ev <> [] /\ posterior b (hard ev) q = 1%Qc /\
  forall g burnIn full n, (forall k, (0 < unif g k)%Qc /\ (unif g k < 1)%Qc) -> (unif g 0 < qq 1 2)%Qc -> (unif g 1 < qq 1 2)%Qc -> n <> 0 ->
    exists f, mcmc_marginals Gibbs burnIn full n g b order ["A"] ev = Ok f /\ potential_at f q = 0%Qc.
Proof.
  exists both, seen, ["A"; "B"; "C"], [("A", "t")]. split; [exact both_sampled|]. split; [exact both_stochastic|]. split; [exact both_topological|].
  split; [apply nodup_s_spec; reflexivity|]. split; [apply legal_evb_ok; reflexivity|]. split; [apply inclb_ok; reflexivity|]. split.
  { split; [apply nodup_s_spec; reflexivity|]. split; [intros v; reflexivity|]. intros v x [H|[]]. inversion H; subst. right. now left. }
  split; [intros x y; rewrite both_possible; intros [<-|[]] [<-|[]]; apply linked_here|]. split; [rewrite both_possible; discriminate|].
  split; [qc|]. intros g burnIn full n G H0 H1 NZ. now apply sunk_estimate.
Qed.

(** ** C53: the spread around the posterior among the states linked to the one the run
    starts from falls like 1/n. *)
Theorem C53_component_squared_error_partial b ev c order vs full : sampled_net b -> stochastic_bn b -> tells b ev c -> starts_possible b ev -> topological b order -> NoDup (dkeys ev) ->
  legal_ev b ev -> incl (dkeys ev) (bnames b) -> incl vs (bnames b) -> full = true \/ free_vars b ev <> [] ->
  exists D B, 0 < D /\ (0 < B)%Qc /\ forall N t burnIn n q m, 0 < N -> Nat.divide D N -> 0 < n -> is_inst b vs q ->
    length (filter (fun v => negb (dmem v ev)) order) + (burnIn + n) * per_step t full (free_vars b ev) <= m ->
    (expectation N m (fun g =>
       match get_sample g 0 b order ev with
       | Ok (s, _) => let x := estimate q (mcmc_marginals t burnIn full n g b order vs ev) - local_posterior b ev c (standing_for b ev s) q in x * x
       | Err _ => 0
       end) <= B / qnat n)%Qc.
Proof.
  intros SN ST TC SP TO ND LE IN VS F. destruct (and_some _ _ (fwd_some b SN ev) (all_some b SN ev)) as (D & P & H).
  destruct (mixing_some b SN ev c TC full F) as (r & e & MX).
  exists D, (1 + (1 + 1) * (qnat r / e))%Qc. split; [exact P|]. split.
  { apply Qclt_le_trans with 1%Qc; [reflexivity|]. rewrite <- (Qcplus_0_r 1%Qc) at 1. apply Qcplus_le_compat; [apply Qcle_refl|].
    apply Qcmult_nonneg; [discriminate|]. apply Qcdiv_nonneg; [apply (qnat_le 0); lia|apply MX]. }
  intros N t burnIn n q m N0 DN n0 Q M. destruct (H N DN) as (FF & GF & MF & DF & VF).
  exact (local_square b SN ev ND IN c TC N N0 GF MF DF VF t full F r e MX ST order TO LE FF SP vs VS q Q burnIn n m n0 M).
Qed.

(** What [standing_for] is: the possible state that gives every variable the value of the sample. *)
Theorem C53_standing b ev order g : sampled_net b -> stochastic_bn b -> topological b order -> NoDup (dkeys ev) -> legal_ev b ev -> incl (dkeys ev) (bnames b) -> starts_possible b ev ->
  (forall k, (0 < unif g k)%Qc /\ (unif g k < 1)%Qc) ->
  exists s k, get_sample g 0 b order ev = Ok (s, k) /\ In (standing_for b ev s) (possible b ev) /\ forall v, In v (bnames b) -> look (standing_for b ev s) v = look s v.
Proof.
  intros SN ST TO ND LE IN SP G. assert (RG : rng_ok g) by (intros i; destruct (G i); split; [now apply Qclt_le_weak|assumption]).
  destruct (sample_total b SN ev order TO g 0 RG ND LE) as (s & k & E & C & K). exists s, k. split; [exact E|].
  assert (CW := canon_worlds b SN ev s C K IN ND). assert (SM := canon_same b SN s C).
  assert (LK : forall v, In v (bnames b) -> look (canon b s) v = look s v).
  { intros v V. unfold look. now rewrite (SM v V). }
  assert (CL : In (canon b s) (possible b ev)).
  { unfold possible. apply filter_In. split; [exact CW|]. apply qltb_true. apply SP; [exact CW|]. intros n Hn NE.
    destruct (forward_box b SN ev order TO ST s ND C K) as (boxes & L & W & H). specialize (H g 0 G).
    assert (B : Forall2 between (map (unif g) (seq 0 (length boxes))) boxes) by (apply H; exists s, k; auto).
    assert (J : (0 < qprod (map width boxes))%Qc).
    { apply qprod_pos. clear - B. induction B as [|u [lo hi] us bs H B IH]; cbn [map]; constructor; [|exact IH].
      unfold width, between in *. cbn [fst snd] in *. destruct H as [H1 H2]. apply -> Qclt_minus_iff. now apply Qclt_le_trans with u. }
    rewrite W in J. clear - J Hn NE LK SN. rewrite (entry_ext n (canon b s) s).
    - assert (I : In n (filter (fun n => negb (dmem (dn_name n) ev)) (bnodes b))).
      { apply filter_In. split; [exact Hn|]. destruct (dmem (dn_name n) ev) eqn:M; [|reflexivity]. apply dmem_In in M. contradiction. }
      assert (NN : forall n, In n (bnodes b) -> (0 <= entry n s)%Qc) by (intros m Hm; exact (entry_nonneg b m s (sn_nonneg b SN) Hm)).
      destruct (Qclt_le_dec 0 (entry n s)) as [P|P]; [exact P|]. exfalso. assert (Z : entry n s = 0%Qc) by (apply Qcle_antisym; auto).
      apply in_split in I as (l1 & l2 & E). rewrite E, map_app, qprod_app in J. cbn [map] in J. rewrite qprod_cons, Z, Qcmult_0_l, Qcmult_0_r in J. now apply Qc_lt_irrefl in J.
    - intros v V. apply LK. destruct V as [<-|V]; [now apply in_map|]. apply in_map_iff in V as ([p vals] & <- & V). destruct (wn_pvals b n (wb_nodes b (sn_bn b SN) n Hn) p vals V) as (m & Hm & <- & _). cbn [fst]. now apply in_map. }
  rewrite (standing_same b SN ev s C), (standing_self b SN ev _ CL). split; [exact CL|exact LK].
Qed.

(** A copying gate with a third variable: two components. *)
Definition copies : bn := mkBN
  [mkN "A" tf [] [] (mkArr [2] [qq 1 4; qq 3 4]); mkN "B" tf [("A", tf)] ["A"] (mkArr [2; 2] [1%Qc; 0%Qc; 0%Qc; 1%Qc]);
   mkN "C" tf [("B", tf)] ["B"] (mkArr [2; 2] [qq 9 10; qq 1 5; qq 1 10; qq 4 5])]
  ["A"; "B"; "C"] [("A", "B"); ("B", "C")].
Definition same_A (x y : dict string) : bool := String.eqb (look x "A") (look y "A").

Lemma copies_sampled : sampled_net copies.
Proof. apply sampled_ok; vm_compute; reflexivity. Qed.

Lemma copies_tells : tells copies [] same_A.
Proof.
  set (p := fun a c : string => [("A", a); ("B", a); ("C", c)]).
  assert (E : possible copies [] = [p "t" "t"; p "t" "f"; p "f" "t"; p "f" "f"]) by (vm_compute; reflexivity).
  assert (M : forall x y, linked copies [] x y -> (exists c, x = p "t" c) \/ (exists c, x = p "f" c) -> look x "A" = look y "A").
  { induction 1 as [x|x v a y S _ IH]; intros X; [reflexivity|]. 
    assert (T : forall o c, x = p o c -> look (dset v a x) "A" = look x "A").
    { intros o c ->. rewrite E in S. unfold p in *. cbn [dset] in S |- *. destruct (String.eqb v "A"); [|destruct (String.eqb v "B"); [reflexivity|destruct (String.eqb v "C"); reflexivity]].
      destruct S as [S|[S|[S|[S|[]]]]]; inversion S; subst; reflexivity. }
    rewrite <- IH.
    - destruct X as [[c X]|[c X]]; symmetry; exact (T _ c X).
    - rewrite E in S. destruct S as [<-|[<-|[<-|[<-|[]]]]]; [left|left|right|right]; now eexists. }
  intros x y X Y. rewrite E in X, Y. unfold same_A. rewrite String.eqb_eq. split.
  - assert (S : forall v a z, In (dset v a z) [p "t" "t"; p "t" "f"; p "f" "t"; p "f" "f"] -> linked copies [] (dset v a z) y -> linked copies [] z y) by (intros v a z; rewrite <- E; apply linked_step).
    destruct X as [<-|[<-|[<-|[<-|[]]]]], Y as [<-|[<-|[<-|[<-|[]]]]]; intros H; try discriminate H; try apply linked_here.
    + apply (S "C" "f"); [cbn; tauto|apply linked_here].
    + apply (S "C" "t"); [cbn; tauto|apply linked_here].
    + apply (S "C" "f"); [cbn; tauto|apply linked_here].
    + apply (S "C" "t"); [cbn; tauto|apply linked_here].
  - intros H. apply M; [exact H|]. destruct X as [<-|[<-|[<-|[<-|[]]]]]; [left|left|right|right]; now eexists.
Qed.

(** The hypotheses, and the three numbers: a chain started with A = t approaches 9/10,
    one started with A = f approaches 1/5; the estimate approaches their mean. *)
Example C52_C53_component_example : let order := ["A"; "B"; "C"] in let q := [("C", "t")] in
  sampled_net copies /\ stochastic_bn copies /\ tells copies [] same_A /\ ~ connected copies [] /\ starts_possible copies [] /\ topological copies order /\
  incl ["C"] (bnames copies) /\ free_vars copies [] <> [] /\ is_inst copies ["C"] q /\
  In [("A", "t"); ("B", "t"); ("C", "f")] (possible copies []) /\
  local_posterior copies [] same_A [("A", "t"); ("B", "t"); ("C", "f")] q = qq 9 10 /\
  local_posterior copies [] same_A [("A", "f"); ("B", "f"); ("C", "f")] q = qq 1 5 /\
  qsum (map (fun y => start_chance copies [] y * local_posterior copies [] same_A y q)%Qc (possible copies [])) = qq 3 8 /\
  standing_for copies [] [("B", "f"); ("C", "t"); ("A", "f")] = [("A", "f"); ("B", "f"); ("C", "t")].
Proof.
  cbn zeta. split; [exact copies_sampled|]. split; [apply stochasticb_ok; [exact (sn_bn _ copies_sampled)|vm_compute; reflexivity]|]. split; [exact copies_tells|]. split.
  { intros CO. set (x := [("A", "t"); ("B", "t"); ("C", "t")]). set (y := [("A", "f"); ("B", "f"); ("C", "t")]).
    assert (E : possible copies [] = [x; [("A", "t"); ("B", "t"); ("C", "f")]; y; [("A", "f"); ("B", "f"); ("C", "f")]]) by (vm_compute; reflexivity).
    assert (X : In x (possible copies [])) by (rewrite E; cbn; tauto). assert (Y : In y (possible copies [])) by (rewrite E; cbn; tauto).
    apply (copies_tells x y X Y) in CO; [discriminate CO|exact X|exact Y]. }
  split.
  { apply C52_starts; [exact copies_sampled|constructor|intros v []|right]. intros n _ []. }
  split; [apply topological_ok; [exact (sn_bn _ copies_sampled)| |]; vm_compute; reflexivity|]. split; [apply inclb_ok; reflexivity|]. split; [discriminate|]. split.
  { split; [apply nodup_s_spec; reflexivity|]. split; [intros v; reflexivity|]. intros v x [H|[]]; inversion H; subst; vm_compute; tauto. }
  split; [vm_compute; tauto|]. split; [qc|]. split; [qc|]. split; [qc|]. vm_compute. reflexivity.
Qed.

Print Assumptions C52_components.
Print Assumptions C52_component_law.
Print Assumptions C52_component_connected.
Print Assumptions C52_component_estimate_partial.
Print Assumptions C52_impossible_start_refuted.
Print Assumptions C53_component_squared_error_partial.
Print Assumptions C53_standing.
