From Coq Require Import Field.
From Verif Require Import Base NDArray Factor Exact Spec OrderSpec TreeSpec BaseFacts NDArrayFacts FactorFacts SpecFacts FactorSpec FactorProofs Sampling MCSpec MCFacts MCProof MCTop.

Lemma keeps_dset ev st v x : keeps ev st -> ~ In v (dkeys ev) -> keeps ev (dset v x st).
Proof.
  intros K N u y H. rewrite dget_dset_neq; [now apply K|]. intros ->. apply N. eapply dget_Some_key; eauto.
Qed.

Section Net.
Variable b : bn.
Hypothesis SN : sampled_net b.
Variable g : rng.
Hypothesis RG : rng_ok g.

Lemma free_spec ev v : In v (free_vars b ev) <-> In v (bnames b) /\ ~ In v (dkeys ev).
Proof.
  unfold free_vars. rewrite filter_In. rewrite negb_true_iff, dmem_nIn.
  pose proof (wg_nodes _ (sn_graph _ SN)) as P. split; intros [A B]; (split; [|exact B]).
  - eapply Permutation_in; [symmetry; exact P|exact A].
  - eapply Permutation_in; eauto.
Qed.

Definition legit (ev : state) (st : state) : Prop := complete b st /\ keeps ev st.

Lemma one_legit t ev st k v : legit ev st -> In v (free_vars b ev) ->
  exists st' k', change_one t g b (st, k) v = Ok (st', k') /\ legit ev st'.
Proof.
  intros [C K] Hv. apply free_spec in Hv as [Hv N]. destruct t; cbn [change_one].
  - destruct (gibbs_total b SN g st k v RG C Hv) as (x & Hx & E). do 2 eexists. split; [exact E|].
    split; [now apply complete_dset|now apply keeps_dset].
  - destruct (mh_total b SN g st k v C Hv) as (x & Hx & [E|E]); do 2 eexists; (split; [exact E|]); split; auto using keeps_dset.
    now apply complete_dset.
Qed.

Lemma fold_legit t ev vs : incl vs (free_vars b ev) -> forall st k, legit ev st ->
  exists st' k', foldM (change_one t g b) vs (st, k) = Ok (st', k') /\ legit ev st'.
Proof.
  induction vs as [|v vs IH]; intros I st k L; [exists st, k; now split|].
  destruct (one_legit t ev st k v L) as (st1 & k1 & E & L1); [apply I; now left|].
  destruct (IH (fun x H => I x (or_intror H)) st1 k1 L1) as (st2 & k2 & E2 & L2).
  exists st2, k2. cbn [foldM]. rewrite E. auto.
Qed.

Lemma step_legit t full ev st k : full = true \/ free_vars b ev <> [] -> legit ev st ->
  exists st' k', step t full g b (free_vars b ev) (st, k) = Ok (st', k') /\ legit ev st'.
Proof.
  intros F L. unfold step. destruct full; [now apply fold_legit; [apply incl_refl|]|].
  destruct F as [F|F]; [discriminate|]. cbn [fst snd].
  destruct (choice_ok g k (free_vars b ev) F) as (v & Hv & E). rewrite E. cbn [rbind]. now apply one_legit.
Qed.

Section Iter.
Variable f : state * nat -> res (state * nat).
Variable P : state -> Prop.
Hypothesis F : forall st k, P st -> exists st' k', f (st, k) = Ok (st', k') /\ P st'.

Lemma burn_ok n : forall st k, P st -> exists st' k', burn f n (st, k) = Ok (st', k') /\ P st'.
Proof.
  induction n as [|n IH]; intros st k H; [exists st, k; now split|]. destruct (F st k H) as (s1 & k1 & E & H1).
  destruct (IH s1 k1 H1) as (s2 & k2 & E2 & H2). exists s2, k2. cbn [burn]. rewrite E. auto.
Qed.

Lemma yields_ok n : forall st k, P st -> exists l, yields f n (st, k) = Ok l /\ length l = n /\ Forall P l.
Proof.
  induction n as [|n IH]; intros st k H; [exists []; now repeat split|]. destruct (F st k H) as (s1 & k1 & E & H1).
  destruct (IH s1 k1 H1) as (l & E2 & L & H2). exists (s1 :: l). cbn [yields]. rewrite E. cbn [rbind]. rewrite E2. cbn [rbind fst].
  split; [reflexivity|]. split; [cbn; now rewrite L|now constructor].
Qed.
End Iter.

Lemma chain_legit t burnIn full N init k ev : complete b init -> keeps ev init ->
  full = true \/ free_vars b ev <> [] ->
  exists l, generate_chain t burnIn full g b N (init, k) (Some ev) = Ok l /\ length l = N /\
    Forall (fun st => complete b st /\ keeps ev st) l.
Proof.
  intros C K Fu. unfold generate_chain. cbn [vars_to_change rbind].
  destruct (burn_ok (step t full g b (free_vars b ev)) (legit ev) (fun st k => step_legit t full ev st k Fu) burnIn init k (conj C K)) as (s & k' & E & L).
  rewrite E. cbn [rbind].
  exact (yields_ok (step t full g b (free_vars b ev)) (legit ev) (fun st k => step_legit t full ev st k Fu) N s k' L).
Qed.

(** Positive draws keep the probability positive. *)
Hypothesis POS : forall k, (0 < unif g k)%Qc.

Lemma one_positive t ev st k v : legit ev st /\ (0 < joint b st)%Qc -> In v (free_vars b ev) ->
  exists st' k', change_one t g b (st, k) v = Ok (st', k') /\ legit ev st' /\ (0 < joint b st')%Qc.
Proof.
  intros [L J] Hv. destruct (one_legit t ev st k v L Hv) as (st' & k' & E & L'). exists st', k'. split; [exact E|]. split; [exact L'|].
  apply free_spec in Hv as [Hv _]. destruct t; cbn [change_one] in E.
  - eapply gibbs_positive; eauto. + apply L. + apply RG.
  - eapply mh_positive; eauto. apply L.
Qed.

Lemma fold_positive t ev vs : incl vs (free_vars b ev) -> forall st k, legit ev st /\ (0 < joint b st)%Qc ->
  exists st' k', foldM (change_one t g b) vs (st, k) = Ok (st', k') /\ legit ev st' /\ (0 < joint b st')%Qc.
Proof.
  induction vs as [|v vs IH]; intros I st k L; [exists st, k; now split|].
  destruct (one_positive t ev st k v L) as (st1 & k1 & E & L1); [apply I; now left|].
  destruct (IH (fun x H => I x (or_intror H)) st1 k1 L1) as (st2 & k2 & E2 & L2).
  exists st2, k2. cbn [foldM]. rewrite E. auto.
Qed.

Lemma step_positive t full ev st k : full = true \/ free_vars b ev <> [] -> legit ev st /\ (0 < joint b st)%Qc ->
  exists st' k', step t full g b (free_vars b ev) (st, k) = Ok (st', k') /\ legit ev st' /\ (0 < joint b st')%Qc.
Proof.
  intros F L. unfold step. destruct full; [now apply fold_positive; [apply incl_refl|]|].
  destruct F as [F|F]; [discriminate|]. cbn [fst snd].
  destruct (choice_ok g k (free_vars b ev) F) as (v & Hv & E). rewrite E. cbn [rbind]. now apply one_positive.
Qed.

Lemma chain_positive t burnIn full N init k ev l : complete b init -> keeps ev init -> (0 < joint b init)%Qc ->
  full = true \/ free_vars b ev <> [] -> generate_chain t burnIn full g b N (init, k) (Some ev) = Ok l ->
  Forall (fun st => 0 < joint b st)%Qc l.
Proof.
  intros C K J Fu. unfold generate_chain. cbn [vars_to_change rbind].
  set (P := fun st => legit ev st /\ (0 < joint b st)%Qc).
  destruct (burn_ok (step t full g b (free_vars b ev)) P (fun st k => step_positive t full ev st k Fu) burnIn init k) as (s & k' & E & L).
  { split; [now split|exact J]. }
  rewrite E. cbn [rbind].
  destruct (yields_ok (step t full g b (free_vars b ev)) P (fun st k => step_positive t full ev st k Fu) N s k' L) as (l' & E' & _ & A).
  rewrite E'. intros H. assert (l = l') by congruence. subst l'. eapply Forall_impl; [|exact A]. intros st [_ Q]. exact Q.
Qed.
End Net.

(** Yielded dicts are one object. *)
Lemma yield_refs_same f r : forall n (heap : list state) k rs heap', r < length heap -> yield_refs f n r heap k = Ok (rs, heap') ->
  rs = repeat r n.
Proof.
  induction n as [|n IH]; intros heap k rs heap' L H; cbn [yield_refs] in H; [inversion H; reflexivity|].
  destruct (f (nth r heap [], k)) as [[st k']|]; cbn [rbind] in H; [|discriminate].
  destruct (yield_refs f n r (list_set r st heap) k') as [[rs1 h1]|] eqn:E; cbn [rbind] in H; [|discriminate].
  inversion H; subst. cbn [repeat]. f_equal. eapply IH; [|exact E]. now rewrite list_set_length.
Qed.

Lemma last_shift {A} (l : list A) : forall x y, last l x = last (x :: l) y.
Proof. induction l as [|a l IH]; intros x y; [reflexivity|]. cbn [last] in IH |- *. destruct l; [reflexivity|]. apply (IH x y). Qed.

Lemma yield_refs_last f r : forall n (heap : list state) k rs heap' l, r < length heap -> yields f n (nth r heap [], k) = Ok l ->
  yield_refs f n r heap k = Ok (rs, heap') -> nth r heap' [] = last l (nth r heap []).
Proof.
  induction n as [|n IH]; intros heap k rs heap' l L Y H; cbn [yield_refs] in H; cbn [yields] in Y.
  - inversion H; inversion Y; subst. reflexivity.
  - destruct (f (nth r heap [], k)) as [[st k']|]; cbn [rbind] in H, Y; [|discriminate H].
    destruct (yield_refs f n r (list_set r st heap) k') as [[rs1 h1]|] eqn:E; cbn [rbind] in H; [|discriminate H].
    destruct (yields f n (st, k')) as [l1|] eqn:Y1; cbn [rbind fst] in Y; [|discriminate Y].
    assert (S1 : nth r (list_set r st heap) [] = st) by now apply list_set_nth_eq.
    assert (Q : nth r h1 [] = last l1 st).
    { rewrite <- S1. apply (IH (list_set r st heap) k' rs1 h1 l1); [now rewrite list_set_length|now rewrite S1|exact E]. }
    inversion H; inversion Y; subst. rewrite Q. apply last_shift.
Qed.

Lemma yield_refs_ok f r : forall n (heap : list state) k l, r < length heap -> yields f n (nth r heap [], k) = Ok l ->
  exists rs heap', yield_refs f n r heap k = Ok (rs, heap').
Proof.
  induction n as [|n IH]; intros heap k l L Y; cbn [yield_refs]; cbn [yields] in Y; [do 2 eexists; reflexivity|].
  destruct (f (nth r heap [], k)) as [[st k']|]; cbn [rbind] in Y |- *; [|discriminate].
  destruct (yields f n (st, k')) as [l1|] eqn:Y1; cbn [rbind] in Y; [|discriminate].
  assert (S1 : nth r (list_set r st heap) [] = st) by now apply list_set_nth_eq.
  destruct (IH (list_set r st heap) k' l1) as (rs & h & E); [now rewrite list_set_length|now rewrite S1|].
  rewrite E. cbn [rbind]. do 2 eexists. reflexivity.
Qed.

Lemma map_repeat {A B} (f : A -> B) x n : map f (repeat x n) = repeat (f x) n.
Proof. induction n; cbn; congruence. Qed.

Lemma listed_same t burnIn full g b N init k ev l : generate_chain t burnIn full g b N (init, k) (Some ev) = Ok l ->
  N <> 0 -> listed_chain t burnIn full g b N (init, k) ev = Ok (repeat (last l []) N).
Proof.
  intros H NZ. unfold generate_chain in H. cbn [vars_to_change rbind] in H. unfold listed_chain.
  destruct (burn _ burnIn (init, k)) as [[st k']|]; cbn [rbind] in H |- *; [|discriminate]. cbn [fst].
  assert (L2 : 1 < length [init; st]) by (cbn; lia).
  destruct (yield_refs_ok _ 1 N [init; st] k' l L2 H) as (rs & h & E). rewrite E. cbn [rbind].
  rewrite (yield_refs_same _ 1 N [init; st] k' rs h L2 E).
  rewrite map_repeat. f_equal. f_equal.
  rewrite (yield_refs_last _ 1 N [init; st] k' rs h l L2 H E).
  destruct l as [|s l]; [|now rewrite <- !last_shift].
  exfalso. destruct N; [contradiction|]. cbn [yields] in H. destruct (step _ _ _ _ _ _) as [[? ?]|]; cbn [rbind] in H; [|discriminate].
  destruct (yields _ _ _); discriminate.
Qed.
