(** Chains only visit states that are linked to the one they start from. *)
From Coq Require Import Field QArith.
From Verif Require Import Base NDArray Factor Exact Spec OrderSpec BaseFacts NDArrayFacts FactorFacts FactorProofs SpecFacts Sampling MCSpec MCFacts MCProof MCTop MCChain MCForward MCMarginal
  LawSpec LawCount LawKernel LawOne LawChain LawPost LawMean LawErgodic LawForward LawMCMC LawEstimate LawTop.

Lemma chance_some N m P : (0 < chance N m P)%Qc -> exists l, In l (streams N m) /\ P (gen l) = true.
Proof.
  intros C. unfold chance in C. destruct (filter (fun l => P (gen l)) (streams N m)) as [|l ls] eqn:E.
  - cbn [length] in C. change (qnat 0) with 0%Qc in C. unfold Qcdiv in C. rewrite Qcmult_0_l in C. now apply Qc_lt_irrefl in C.
  - assert (H : In l (filter (fun l => P (gen l)) (streams N m))) by (rewrite E; now left). apply filter_In in H. now exists l.
Qed.

Section Net.
Variable b : bn.
Hypothesis SN : sampled_net b.
Variable ev : dict string.
Hypothesis IN : incl (dkeys ev) (bnames b).
Notation W := (worlds b ev).
Notation L := (possible b ev).

Lemma linked_next x v a y : linked b ev x y -> In (dset v a y) L -> linked b ev x (dset v a y).
Proof.
  induction 1 as [x|x u c y X H IH]; intros Y.
  - apply linked_step with v a; [exact Y|constructor].
  - apply linked_step with u c; [exact X|]. now apply IH.
Qed.

Lemma one_moves t g st k v st' k' : change_one t g b (st, k) v = Ok (st', k') -> st' = st \/ exists a, st' = dset v a st.
Proof.
  destruct t; cbn [change_one]; intros H.
  - unfold gibbs_one in H. destruct (get_node b v); cbn [rbind] in H; [|discriminate]. destruct (get_children b v); cbn [rbind] in H; [|discriminate].
    cbn [fst snd] in H. destruct (sample_value _ _ _ _ _ _) as [[w k1]|]; cbn [rbind] in H; [|discriminate]. inversion H; subst. right. now exists w.
  - unfold mh_one in H. cbn [fst snd] in H. destruct (dget_err _ _ _); cbn [rbind] in H; [|discriminate]. destruct (get_node b v); cbn [rbind] in H; [|discriminate].
    destruct (choice _ _ _) as [[w k1]|]; cbn [rbind] in H; [|discriminate]. destruct (get_children b v); cbn [rbind] in H; [|discriminate].
    destruct (get_markov_prob _ w _ _ _); cbn [rbind] in H; [|discriminate]. destruct (get_markov_prob _ _ _ _ _); cbn [rbind] in H; [|discriminate].
    destruct (qleb _ _); inversion H; subst; [right; now exists w|now left].
Qed.

Section Run.
Variable g : rng.
Hypothesis G : forall k, (0 < unif g k)%Qc /\ (unif g k < 1)%Qc.
Variable x : dict string.
Definition visited (s : dict string) : Prop := In s L /\ linked b ev x s.

Lemma one_visited t st k v : visited st -> In v (free_vars b ev) -> exists st' k', change_one t g b (st, k) v = Ok (st', k') /\ visited st'.
Proof.
  intros [S K] V. assert (S' := live_world b ev st S).
  assert (RG : rng_ok g) by (intros j; split; [apply Qclt_le_weak|]; apply G).
  destruct (one_positive b SN g RG (fun j => proj1 (G j)) t ev st k v) as (st' & k' & E & [C KE] & J); [|exact V|].
  { split; [split; [now apply (worlds_complete b SN ev)|now apply (worlds_keep b SN ev)]|now apply (live_pos b ev)]. }
  exists st', k'. split; [exact E|]. destruct (one_moves t g st k v st' k' E) as [->|(a & ->)]; [now split|].
  assert (V' := proj1 (proj1 (free_spec b SN ev v) V)).
  assert (Y : In (dset v a st) L).
  { apply (live_spec b ev). split; [|exact J]. apply worlds_dset; auto. destruct (C v V') as (a' & A & I). rewrite dget_dset_eq in A. now inversion A. }
  split; [exact Y|]. now apply linked_next.
Qed.

Lemma fold_visited t vs : incl vs (free_vars b ev) -> forall st k, visited st -> exists st' k', foldM (change_one t g b) vs (st, k) = Ok (st', k') /\ visited st'.
Proof.
  induction vs as [|v vs IH]; intros I st k S; [exists st, k; now split|].
  destruct (one_visited t st k v S) as (st1 & k1 & E & S1); [apply I; now left|].
  destruct (IH (fun x H => I x (or_intror H)) st1 k1 S1) as (st2 & k2 & E2 & S2). exists st2, k2. cbn [foldM]. rewrite E. auto.
Qed.

Lemma step_visited t full st k : full = true \/ free_vars b ev <> [] -> visited st ->
  exists st' k', step t full g b (free_vars b ev) (st, k) = Ok (st', k') /\ visited st'.
Proof.
  intros F S. unfold step. destruct full; [apply fold_visited; [apply incl_refl|exact S]|].
  destruct F as [F|F]; [discriminate|]. cbn [fst snd]. destruct (choice_ok g k (free_vars b ev) F) as (v & Hv & E). rewrite E. cbn [rbind]. now apply one_visited.
Qed.

Lemma chain_visited t burnIn full n k : full = true \/ free_vars b ev <> [] -> In x L ->
  exists l, generate_chain t burnIn full g b n (x, k) (Some ev) = Ok l /\ Forall visited l.
Proof.
  intros F X. unfold generate_chain. cbn [vars_to_change rbind].
  destruct (burn_ok (step t full g b (free_vars b ev)) visited (fun st k => step_visited t full st k F) burnIn x k) as (s & k' & E & S); [split; [exact X|constructor]|].
  rewrite E. cbn [rbind].
  destruct (yields_ok (step t full g b (free_vars b ev)) visited (fun st k => step_visited t full st k F) n s k' S) as (l & E' & _ & A).
  exists l. now split.
Qed.
End Run.

Lemma agrees_refl y : In y W -> forall s, In s W -> agrees y s = true -> s = y.
Proof.
  intros Y s S A. apply (worlds_ext b SN ev); auto. intros v V. apply (free_spec b SN) in V as [V _].
  destruct (worlds_complete b SN ev y Y v V) as (a & E & _). rewrite (look_dget _ _ _ E). unfold agrees in A. rewrite forallb_forall in A.
  specialize (A _ (dget_In _ _ _ E)). cbn in A. now apply String.eqb_eq in A.
Qed.

Lemma shown_linked N m t burnIn full n j x y : full = true \/ free_vars b ev <> [] -> In x L -> In y L ->
  (0 < chance N m (fun g => shows y j (generate_chain t burnIn full g b n (x, 0%nat) (Some ev))))%Qc -> linked b ev x y.
Proof.
  intros F X Y C. destruct (chance_some N m _ C) as (l & Hl & S).
  destruct (chain_visited (gen l) (gen_positive N m l Hl) x t burnIn full n 0 F X) as (ch & E & V). rewrite E in S. unfold shows in S.
  destruct (nth_error ch j) as [s|] eqn:NE; [|discriminate]. apply nth_error_In in NE. rewrite Forall_forall in V. destruct (V s NE) as [SL K].
  rewrite <- (agrees_refl y (live_world b ev y Y) s (live_world b ev s SL) S). exact K.
Qed.

Lemma post_pos y : NoDup (dkeys ev) -> In y L -> (0 < posterior b (hard ev) y)%Qc.
Proof.
  intros ND Y. pose proof (live_mass b SN ev ND IN y Y) as M. unfold posterior. destruct (qeqb (mass b (hard ev) []) 0%Qc) eqn:E.
  - apply qeqb_true in E. rewrite E in M. now apply Qc_lt_irrefl in M.
  - rewrite (mass_full b SN ev ND IN y (live_world b ev y Y)). unfold Qcdiv. apply Qcmult_pos; [now apply (live_pos b ev)|now apply Qcinv_pos].
Qed.
End Net.

(** ** Where sampling may start *)
Section Starts.
Variable b : bn.
Hypothesis SN : sampled_net b.
Variable ev : dict string.
Hypothesis ND : NoDup (dkeys ev).
Hypothesis IN : incl (dkeys ev) (bnames b).
Notation W := (worlds b ev).

Lemma starts_observed : (forall n, In n (bnodes b) -> In (dn_name n) (dkeys ev) -> Forall (fun x => (0 < x)%Qc) (data (dn_cpd n))) -> starts_possible b ev.
Proof.
  intros P x X H. apply qprod_pos, Forall_forall. intros z Z. apply in_map_iff in Z as (n & <- & Hn).
  destruct (in_dec string_dec (dn_name n) (dkeys ev)) as [K|K]; [|now apply H]. pose proof (wb_nodes _ (sn_bn b SN) _ Hn) as WN. unfold entry, aget.
  apply (proj1 (Forall_forall _ _) (P n Hn K)). apply nth_In. rewrite (wn_arr _ _ WN). apply ravel_lt. rewrite (wn_shape _ _ WN). apply inb_map.
  pose proof (worlds_complete b SN ev x X) as C. intros p [<-|Hp]; cbn [fst snd]; rewrite position_idx; apply idx_lt.
  - destruct (C (dn_name n) (in_map dn_name _ _ Hn)) as (a & A & I). rewrite (look_dget _ _ _ A). now rewrite (values_of_node b (sn_bn b SN) n Hn) in I.
  - destruct p as [v vals]. cbn [fst snd]. destruct (wn_pvals _ _ WN _ _ Hp) as (k & K' & <- & <-).
    destruct (C (dn_name k) (in_map dn_name _ _ K')) as (a & A & I). rewrite (look_dget _ _ _ A). now rewrite (values_of_node b (sn_bn b SN) k K') in I.
Qed.

Lemma qsum_pos_some {A} (f : A -> Qc) l : (0 < qsum (map f l))%Qc -> (forall x, In x l -> (0 <= f x)%Qc) -> exists x, In x l /\ (0 < f x)%Qc.
Proof.
  induction l as [|x l IH]; cbn [map qsum]; intros S P; [now apply Qc_lt_irrefl in S|].
  destruct (Qclt_le_dec 0 (f x)) as [L|L]; [exists x; split; [now left|exact L]|].
  destruct IH as (y & Y & H); [|intros; apply P; now right|exists y; split; [now right|exact H]].
  eapply Qclt_le_trans; [exact S|]. rewrite <- (Qcplus_0_l (qsum (map f l))) at 2. apply Qcplus_le_compat; [exact L|apply Qcle_refl].
Qed.

Lemma starts_upstream : upstream b ev -> (0 < mass b (hard ev) [])%Qc -> starts_possible b ev.
Proof.
  intros U M x X H. rewrite (mass_total b ev ND IN) in M. destruct (qsum_pos_some _ _ M) as (y & Y & JY); [intros z _; now apply joint_nonneg|].
  assert (FX : (0 < fwd b ev x)%Qc).
  { apply qprod_pos, Forall_forall. intros z Z. apply in_map_iff in Z as (n & <- & Hn). apply filter_In in Hn as [Hn D]. apply H; [exact Hn|].
    intros K. apply dmem_In in K. rewrite K in D. discriminate. }
  assert (E := upstream_joint b SN ev IN U x y X Y). assert (P : (0 < joint b y * fwd b ev x)%Qc) by now apply Qcmult_pos. rewrite <- E in P.
  destruct (joint_pos_or_zero b SN x) as [Z|J]; [|exact J]. rewrite Z, Qcmult_0_l in P. now apply Qc_lt_irrefl in P.
Qed.
End Starts.
