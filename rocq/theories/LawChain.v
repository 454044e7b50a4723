(** The whole chain keeps the posterior. *)
From Coq Require Import Field QArith.
From Verif Require Import Base NDArray Factor Exact Spec OrderSpec BaseFacts FactorProofs SpecFacts Sampling MCSpec MCFacts MCProof MCTop MCChain
  LawSpec LawCount LawKernel LawOne.

(** ** Grids fine enough *)
Lemma fine_some a : (0 <= a)%Qc -> exists D, 0 < D /\ forall N, Nat.divide D N -> fine N a.
Proof.
  intros A. destruct a as [[p q] C]. exists (Pos.to_nat q). split; [apply Pos2Nat.is_pos|]. intros N [k ->].
  exists (k * Z.to_nat p). rewrite !qnat_mul.
  assert (P : (0 <= p)%Z) by (unfold Qcle, Qle in A; cbn [this Qnum Qden] in A; change (Qnum (this 0%Qc)) with 0%Z in A; change (Qden (this 0%Qc)) with 1%positive in A; rewrite Z.mul_0_l, Z.mul_1_r in A; exact A).
  assert (E : (qnat (Pos.to_nat q) * {| this := p # q; canon := C |})%Qc = qnat (Z.to_nat p)).
  { apply Qc_is_canon. unfold qnat, Qcmult, Q2Qc. cbn [this]. rewrite !Qred_correct. unfold Qeq, inject_Z, Qmult. cbn [Qnum Qden].
    rewrite positive_nat_Z, Z2Nat.id by exact P. lia. }
  rewrite <- E, Qcmult_assoc. reflexivity.
Qed.

Lemma each_some {A} (l : list A) (P : A -> nat -> Prop) : (forall a, In a l -> exists D, 0 < D /\ forall N, Nat.divide D N -> P a N) ->
  exists D, 0 < D /\ forall N, Nat.divide D N -> forall a, In a l -> P a N.
Proof.
  induction l as [|a l IH]; intros H; [exists 1; split; [lia|now intros]|].
  destruct (H a) as (D1 & P1 & H1); [now left|]. destruct IH as (D2 & P2 & H2); [intros x X; apply H; now right|].
  exists (D1 * D2). split; [lia|]. intros N D x [<-|X].
  - apply H1. eapply Nat.divide_trans; [|exact D]. now exists D2; rewrite Nat.mul_comm.
  - apply H2; auto. eapply Nat.divide_trans; [|exact D]. now exists D1.
Qed.

Lemma and_some (P Q : nat -> Prop) : (exists D, 0 < D /\ forall N, Nat.divide D N -> P N) -> (exists D, 0 < D /\ forall N, Nat.divide D N -> Q N) ->
  exists D, 0 < D /\ forall N, Nat.divide D N -> P N /\ Q N.
Proof.
  intros (D1 & P1 & H1) (D2 & P2 & H2). exists (D1 * D2). split; [lia|]. intros N D. split.
  - apply H1. eapply Nat.divide_trans; [|exact D]. now exists D2; rewrite Nat.mul_comm.
  - apply H2. eapply Nat.divide_trans; [|exact D]. now exists D1.
Qed.

Section Some.
Variable b : bn.
Hypothesis SN : sampled_net b.
Variable ev : dict string.

Lemma gibbs_some : exists D, 0 < D /\ forall N, Nat.divide D N -> gibbs_fine b ev N.
Proof.
  destruct (each_some (free_vars b ev) (fun v N => forall x, In x (worlds b ev) -> forall i, In i (seq 0 (S (length (values_of b v)))) ->
    fine N (upto (column b v x) i / qsum (column b v x)))) as (D & P & H).
  - intros v V. apply (each_some (worlds b ev) (fun x N => forall i, In i (seq 0 (S (length (values_of b v)))) ->
      fine N (upto (column b v x) i / qsum (column b v x)))). intros x X.
    apply (each_some (seq 0 (S (length (values_of b v)))) (fun i N => fine N (upto (column b v x) i / qsum (column b v x)))). intros i _.
    apply fine_some. destruct (Qc_eq_dec (qsum (column b v x)) 0%Qc) as [E|E]; [rewrite E; unfold Qcdiv; replace (/ 0)%Qc with 0%Qc by reflexivity; rewrite Qcmult_0_r; apply Qcle_refl|].
    pose proof (column_nonneg b SN v x) as NNg. apply Qcdiv_nonneg.
    + unfold upto. apply qsum_nonneg. rewrite <- (firstn_skipn i) in NNg. now apply Forall_app in NNg.
    + apply Qc_nonneg_neq0_pos; [now apply qsum_nonneg|exact E].
  - exists D. split; [exact P|]. intros N DN v x i V X I. apply (H N DN v V x X). apply in_seq. lia.
Qed.

Lemma mh_some : exists D, 0 < D /\ forall N, Nat.divide D N -> mh_fine b ev N.
Proof.
  destruct (each_some (bnodes b) (fun n N => forall x, In x (worlds b ev) -> forall i, In i (seq 0 (length (values_of b (dn_name n)))) ->
    fine N (acc b n (dset (dn_name n) (nth i (values_of b (dn_name n)) "") x) x))) as (D & P & H).
  - intros n Hn. apply (each_some (worlds b ev) (fun x N => forall i, In i (seq 0 (length (values_of b (dn_name n)))) ->
      fine N (acc b n (dset (dn_name n) (nth i (values_of b (dn_name n)) "") x) x))). intros x X.
    apply (each_some (seq 0 (length (values_of b (dn_name n)))) (fun i N => fine N (acc b n (dset (dn_name n) (nth i (values_of b (dn_name n)) "") x) x))).
    intros i _. apply fine_some. apply accept_range; apply blanket_nonneg; auto; apply (sn_nonneg b SN).
  - exists D. split; [exact P|]. intros N DN n x i Hn V X I. apply (H N DN n Hn x X). apply in_seq. lia.
Qed.

Lemma div_some : exists D, 0 < D /\ forall N, Nat.divide D N -> div_fine b N.
Proof.
  apply (each_some (bnames b) (fun v N => Nat.divide (length (values_of b v)) N)). intros v Hv. exists (length (values_of b v)). split; [|auto].
  destruct (node_of b SN v Hv) as (m & _ & _ & _ & V & NE & _). rewrite V. destruct (dn_values m); [contradiction|cbn; lia].
Qed.

Lemma all_some : exists D, 0 < D /\ forall N, Nat.divide D N ->
  gibbs_fine b ev N /\ mh_fine b ev N /\ div_fine b N /\ (free_vars b ev <> [] -> Nat.divide (length (free_vars b ev)) N).
Proof.
  apply and_some; [exact gibbs_some|]. apply and_some; [exact mh_some|]. apply and_some; [exact div_some|].
  destruct (free_vars b ev) as [|v l]; [exists 1; split; [lia|congruence]|]. exists (length (v :: l)). split; [cbn; lia|auto].
Qed.
End Some.

(** ** The draws a computation uses *)
Definition dl (g : rng) (k c : nat) : list (Qc * nat) := map (fun i => (unif g i, choose g i)) (seq k c).

Lemma dl_app g k c d : dl g k (c + d) = dl g k c ++ dl g (k + c) d.
Proof. unfold dl. now rewrite seq_app, map_app. Qed.
Lemma dl_length g k c : length (dl g k c) = c.
Proof. unfold dl. now rewrite map_length, seq_length. Qed.
Lemma dl_firstn g k c d : firstn c (dl g k (c + d)) = dl g k c.
Proof. rewrite dl_app, <- (dl_length g k c) at 1. now rewrite firstn_app, Nat.sub_diag, firstn_all, app_nil_r. Qed.
Lemma dl_skipn g k c d : skipn c (dl g k (c + d)) = dl g (k + c) d.
Proof. rewrite dl_app, <- (dl_length g k c) at 1. now rewrite skipn_app, Nat.sub_diag, skipn_all. Qed.

Lemma dl_gen l c : c <= length l -> dl (gen l) 0 c = firstn c l.
Proof.
  intros L. apply (nth_ext _ _ (half, 0) (half, 0)).
  - rewrite dl_length, firstn_length. lia.
  - rewrite dl_length. intros i I. unfold dl.
    rewrite (nth_indep _ _ (unif (gen l) 0, choose (gen l) 0)) by (rewrite map_length, seq_length; exact I).
    rewrite (map_nth (fun i => (unif (gen l) i, choose (gen l) i)) (seq 0 c) 0 i), seq_nth by exact I. cbn [Nat.add gen unif choose].
    rewrite <- (firstn_skipn c l) at 1 2. rewrite app_nth1 by (rewrite firstn_length; lia). now destruct (nth i (firstn c l) (half, 0)).
Qed.

Definition computes (f : rng -> state * nat -> res (state * nat)) (F : prog) (c : nat) : Prop :=
  forall g st k, f g (st, k) = let* s := F st (dl g k c) in Ok (s, k + c).

Lemma computes_seq f F c f' G d : computes f F c -> computes f' G d ->
  computes (fun g a => let* x := f g a in f' g x) (follow c F G) (c + d).
Proof.
  intros H1 H2 g st k. rewrite H1. unfold follow. rewrite dl_firstn. destruct (F st (dl g k c)) as [s|e]; cbn [rbind]; [|reflexivity].
  rewrite H2, dl_skipn. destruct (G s _); cbn [rbind]; [|reflexivity]. now rewrite Nat.add_assoc.
Qed.

Section Net.
Variable b : bn.
Variable ev : dict string.

Lemma one_computes t v : computes (fun g a => change_one t g b a v) (one b t v) (per_variable t).
Proof.
  intros g st k. unfold one. destruct t; cbn [change_one per_variable].
  - unfold gibbs_one. cbn [fst snd]. destruct (get_node b v); cbn [rbind]; [|reflexivity]. destruct (get_children b v); cbn [rbind]; [|reflexivity].
    unfold sample_value. destruct (mapM _ _) as [ws|]; cbn [rbind]; [|reflexivity]. change (unif (gen (dl g k 1)) 0) with (unif g k).
    destruct (roulette _ _ _ _); cbn [rbind]; [|reflexivity]. now rewrite Nat.add_1_r.
  - unfold mh_one. cbn [fst snd]. destruct (dget_err KeyError v st); cbn [rbind]; [|reflexivity].
    destruct (get_node b v) as [n|]; cbn [rbind]; [|reflexivity]. unfold choice. destruct (dn_values n) as [|y0 ys] eqn:V; cbn [rbind]; [reflexivity|].
    change (choose (gen (dl g k 2)) 0) with (choose g k). set (y := nth (Nat.modulo (choose g k) (length (y0 :: ys))) (y0 :: ys) y0).
    destruct (get_children b v); cbn [rbind]; [|reflexivity].
    destruct (get_markov_prob n y _ _ _); cbn [rbind]; [|reflexivity]. destruct (get_markov_prob n _ _ st _); cbn [rbind]; [|reflexivity].
    change (unif (gen (dl g k 2)) 1) with (unif g (S k)). now rewrite Nat.add_comm.
Qed.

Fixpoint sweep (t : transition) (vs : list string) : prog :=
  match vs with [] => pause | v :: vs' => follow (per_variable t) (one b t v) (sweep t vs') end.

Lemma sweep_computes t vs : computes (fun g a => foldM (change_one t g b) vs a) (sweep t vs) (per_variable t * length vs).
Proof.
  induction vs as [|v vs IH].
  - intros g st k. cbn [foldM sweep length]. unfold pause. cbn [rbind]. now rewrite Nat.mul_0_r, Nat.add_0_r.
  - cbn [length sweep]. rewrite Nat.mul_succ_r, Nat.add_comm. intros g st k.
    etransitivity; [|exact (computes_seq _ _ _ _ _ _ (one_computes t v) IH g st k)]. reflexivity.
Qed.

Definition stepp (t : transition) (full : bool) (vs : list string) : prog :=
  if full then sweep t vs else pickp vs (one b t).

Lemma step_computes t full vs : full = true \/ vs <> [] ->
  computes (fun g a => step t full g b vs a) (stepp t full vs) (per_step t full vs).
Proof.
  intros F. destruct full; [exact (sweep_computes t vs)|]. destruct F as [F|F]; [discriminate|]. intros g st k. unfold step, stepp, per_step, choice, pickp.
  cbn [fst snd]. destruct vs as [|v vs]; [contradiction|]. cbn [rbind]. change (dl g k (S (per_variable t))) with ((unif g k, choose g k) :: dl g (S k) (per_variable t)).
  cbn [snd]. rewrite (nth_indep (v :: vs) "" v) by (apply Nat.mod_upper_bound; discriminate). rewrite (one_computes t _ g st (S k)).
  destruct (one b t _ st _); cbn [rbind]; [|reflexivity]. now rewrite Nat.add_succ_r.
Qed.

Fixpoint burnp (c : nat) (F : prog) (n : nat) : prog := match n with O => pause | S n' => follow c F (burnp c F n') end.

Lemma burn_computes f F c n : computes f F c -> computes (fun g a => burn (f g) n a) (burnp c F n) (n * c).
Proof.
  intros H. induction n as [|n IH]; [intros g st k; cbn; now rewrite Nat.add_0_r|]. exact (computes_seq _ _ _ _ _ _ H IH).
Qed.

Variable N : nat.
Hypothesis N0 : 0 < N.
Hypothesis SN : sampled_net b.
Hypothesis GF : gibbs_fine b ev N.
Hypothesis MF : mh_fine b ev N.
Hypothesis DF : div_fine b N.
Hypothesis VF : free_vars b ev <> [] -> Nat.divide (length (free_vars b ev)) N.

Lemma one_invariant t v : In v (free_vars b ev) -> invariant b ev N (one b t v) (per_variable t).
Proof. intros V. destruct t; [now apply gibbs_invariant|now apply mh_invariant]. Qed.

Lemma step_invariant t full : full = true \/ free_vars b ev <> [] ->
  invariant b ev N (stepp t full (free_vars b ev)) (per_step t full (free_vars b ev)).
Proof.
  intros F. destruct full; unfold stepp, per_step.
  - assert (I : incl (free_vars b ev) (free_vars b ev)) by apply incl_refl. revert I. generalize (free_vars b ev) at 1 3 4. intros vs.
    induction vs as [|v vs IH]; intros I; cbn [sweep length]; [rewrite Nat.mul_0_r; apply pause_invariant|].
    rewrite Nat.mul_succ_r, Nat.add_comm. apply follow_invariant; [apply one_invariant, I; now left|apply IH; intros x X; apply I; now right].
  - destruct F as [F|F]; [discriminate|]. apply pick_invariant; auto. intros v V. now apply one_invariant.
Qed.

Lemma burn_invariant c F n : invariant b ev N F c -> invariant b ev N (burnp c F n) (n * c).
Proof. intros H. induction n as [|n IH]; [apply pause_invariant|]. now apply follow_invariant. Qed.

(** ** The states of a chain *)
Lemma yields_burn f n : forall acc l, yields f n acc = Ok l -> forall j, j < n ->
  exists st k, nth_error l j = Some st /\ burn f (S j) acc = Ok (st, k).
Proof.
  induction n as [|n IH]; intros acc l H j J; [lia|]. cbn [yields] in H. destruct (f acc) as [[st k]|] eqn:E; cbn [rbind] in H; [|discriminate].
  destruct (yields f n (st, k)) as [l'|] eqn:Y; cbn [rbind] in H; [|discriminate]. inversion H; subst. cbn [fst]. destruct j as [|j].
  - exists st, k. cbn [nth_error burn]. rewrite E. auto.
  - destruct (IH _ _ Y j) as (s' & k' & A & B); [lia|]. exists s', k'. split; [exact A|]. cbn [burn] in *. now rewrite E.
Qed.

Lemma burn_add f n : forall m acc, burn f (n + m) acc = let* a := burn f n acc in burn f m a.
Proof.
  induction n as [|n IH]; intros m acc; [reflexivity|]. cbn [burn Nat.add]. destruct (f acc) as [a|]; cbn [rbind]; [apply IH|reflexivity].
Qed.

Lemma shows_burn t full burnIn n j g x q : rng_ok g -> complete b x -> keeps ev x -> full = true \/ free_vars b ev <> [] -> j < n ->
  shows q j (generate_chain t burnIn full g b n (x, 0) (Some ev)) =
  match burn (step t full g b (free_vars b ev)) (burnIn + S j) (x, 0) with Ok (s, _) => agrees q s | Err _ => false end.
Proof.
  intros G C K F J. destruct (chain_legit b SN g G t burnIn full n x 0 ev C K F) as (l & E & _ & _). rewrite E. rewrite burn_add.
  unfold generate_chain in E. cbn [vars_to_change rbind] in E. destruct (burn _ burnIn (x, 0)) as [a|]; cbn [rbind] in E |- *; [|discriminate].
  destruct (yields_burn _ _ _ _ E j J) as (st & k & A & B). rewrite B. cbn [shows]. now rewrite A.
Qed.

Lemma chance_burn t full burnIn n j x q m : complete b x -> keeps ev x -> full = true \/ free_vars b ev <> [] -> j < n ->
  (burnIn + S j) * per_step t full (free_vars b ev) <= m ->
  let c := (burnIn + S j) * per_step t full (free_vars b ev) in
  (powc (qnat N * qnat N) c * chance N m (fun g => shows q j (generate_chain t burnIn full g b n (x, 0%nat) (Some ev))) =
   qsum (map (fun l => val (fun s => ind (agrees q s)) (burnp (per_step t full (free_vars b ev)) (stepp t full (free_vars b ev)) (burnIn + S j)%nat x l)) (streams N c)))%Qc.
Proof.
  intros C K F J L c. set (S1 := qsum (map _ (streams N c))).
  assert (NZ : (qnat N * qnat N)%Qc <> 0%Qc) by (intros E; apply Qcmult_integral in E as [E|E]; now apply (qnat_neq0 N N0)).
  destruct (chance_sum N m (fun g => shows q j (generate_chain t burnIn full g b n (x, 0%nat) (Some ev)))) as [E|E]; [|lia].
  assert (T : qsum (map (fun l => ind (shows q j (generate_chain t burnIn full (gen l) b n (x, 0%nat) (Some ev)))) (streams N m)) =
              (powc (qnat N * qnat N) (m - c) * S1)%Qc).
  { replace m with (c + (m - c)) at 1 by (unfold c; lia). rewrite streams_split. unfold S1. rewrite <- qsum_mult_l. apply qsum_map_ext. intros l1 L1.
    rewrite <- streams_count, <- qsum_const. apply qsum_map_ext. intros l2 L2.
    pose proof (proj1 (Forall_forall _ _) (streams_length N c) l1 L1) as LE.
    assert (G : rng_ok (gen (l1 ++ l2))).
    { intros k. cbn [gen unif].
      assert (D : Forall (fun d => In d (draws N)) (l1 ++ l2)) by (apply Forall_app; split; eapply streams_draws; eauto).
      destruct (Nat.lt_ge_cases k (length (l1 ++ l2))) as [LT|LT].
      - rewrite Forall_forall in D. specialize (D _ (nth_In _ (half, 0) LT)). destruct (nth k (l1 ++ l2) (half, 0)) as [u w]. cbn [fst].
        unfold draws in D. apply in_prod_iff in D as [D _]. apply grid_in in D as [A B]. split; [now apply Qclt_le_weak|exact B].
      - rewrite nth_overflow by lia. cbn [fst]. split; [discriminate|reflexivity]. }
    rewrite shows_burn by assumption.
    pose proof (burn_computes _ _ _ (burnIn + S j) (step_computes t full (free_vars b ev) F) (gen (l1 ++ l2)) x 0) as BC. cbv beta in BC.
    etransitivity; [apply f_equal; exact (f_equal (fun r => match r with Ok (s, _) => agrees q s | Err _ => false end) BC)|].
    fold c. rewrite (dl_gen (l1 ++ l2) c) by (rewrite app_length, LE; apply Nat.le_add_r). rewrite <- LE at 1. rewrite firstn_app, Nat.sub_diag, firstn_all, app_nil_r.
    destruct (burnp _ _ _ x l1); reflexivity. }
  rewrite T in E. replace m with (c + (m - c)) in E at 2 by (unfold c; lia). rewrite powc_add in E.
  apply (Qcmult_cancel (powc (qnat N * qnat N) (m - c))); [now apply powc_neq0|]. rewrite <- E. ring.
Qed.

Lemma chain_keeps t full burnIn n j q m : incl (dkeys ev) (bnames b) -> full = true \/ free_vars b ev <> [] -> j < n ->
  (burnIn + S j) * per_step t full (free_vars b ev) <= m ->
  qsum (map (fun x => joint b x * chance N m (fun g => shows q j (generate_chain t burnIn full g b n (x, 0%nat) (Some ev))))%Qc (worlds b ev)) =
  qsum (map (fun x => joint b x * ind (agrees q x))%Qc (worlds b ev)).
Proof.
  intros I F J L. set (c := (burnIn + S j) * per_step t full (free_vars b ev)).
  assert (NZ : (qnat N * qnat N)%Qc <> 0%Qc) by (intros E; apply Qcmult_integral in E as [E|E]; now apply (qnat_neq0 N N0)).
  apply (Qcmult_cancel (powc (qnat N * qnat N) c)); [now apply powc_neq0|].
  etransitivity; [|exact (burn_invariant _ _ (burnIn + S j) (step_invariant t full F) (fun s => ind (agrees q s)))]. rewrite <- qsum_mult_l.
  apply qsum_map_ext. intros x X. rewrite <- (chance_burn t full burnIn n j x q m); auto.
  - fold c. ring.
  - now apply (worlds_complete b SN ev).
  - now apply (worlds_keep b SN ev).
Qed.
End Net.
