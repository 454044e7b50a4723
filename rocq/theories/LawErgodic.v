(** Chains over connected possible states forget where they started. *)
From Coq Require Import Field QArith.
From Verif Require Import Base NDArray Factor Exact Spec OrderSpec BaseFacts FactorProofs SpecFacts Sampling MCSpec MCFacts MCProof MCTop MCChain
  LawSpec LawCount LawKernel LawOne LawChain LawPost LawMean.

Lemma Qcmult_le_l c x y : (0 <= c)%Qc -> (x <= y)%Qc -> (c * x <= c * y)%Qc.
Proof. intros C L. rewrite !(Qcmult_comm c). now apply Qcmult_le_compat_r. Qed.

Lemma each_low {A} (l : list A) (P : A -> Qc -> Prop) : (forall a d d', P a d -> (0 < d')%Qc -> (d' <= d)%Qc -> P a d') ->
  (forall a, In a l -> exists d, (0 < d)%Qc /\ P a d) -> exists d, (0 < d)%Qc /\ (d <= 1)%Qc /\ forall a, In a l -> P a d.
Proof.
  intros Dn. induction l as [|a l IH]; intros H; [exists 1%Qc; repeat split; [discriminate|now intros]|].
  destruct (H a (or_introl eq_refl)) as (d1 & P1 & H1). destruct IH as (d2 & P2 & L2 & H2); [auto with datatypes|].
  destruct (Qclt_le_dec d1 d2) as [L|L].
  - exists d1. split; [exact P1|]. split; [eapply Qcle_trans; [apply Qclt_le_weak; exact L|exact L2]|].
    intros x [<-|X]; [exact H1|]. apply (Dn x d2); auto using Qclt_le_weak.
  - exists d2. split; [exact P2|]. split; [exact L2|]. intros x [<-|X]; [|auto]. apply (Dn a d1); auto.
Qed.

(** ** Repeated averaging *)
Fixpoint iter (T : (dict string -> Qc) -> dict string -> Qc) (n : nat) (h : dict string -> Qc) : dict string -> Qc :=
  match n with O => h | S n' => T (iter T n' h) end.

Lemma iter_add T n m h : iter T (n + m) h = iter T n (iter T m h).
Proof. induction n as [|n IH]; cbn [iter Nat.add]; [reflexivity|]. now rewrite IH. Qed.

Section Abstract.
Variable W : list (dict string).
Variable w : dict string -> Qc.
Hypothesis w_nonneg : forall x, In x W -> (0 <= w x)%Qc.
Hypothesis w_total : qsum (map w W) = 1%Qc.
Definition avg (h : dict string -> Qc) : Qc := qsum (map (fun x => w x * h x)%Qc W).

Lemma avg_affine a c h : avg (fun s => a * h s + c)%Qc = (a * avg h + c)%Qc.
Proof.
  unfold avg. rewrite (qsum_map_ext _ (fun x => a * (w x * h x) + c * w x)%Qc) by (intros; ring).
  rewrite qsum_plus, !qsum_mult_l. change (fun x => w x) with w. rewrite w_total. ring.
Qed.

Lemma avg_le c h : (forall s, In s W -> (h s <= c)%Qc) -> (avg h <= c)%Qc.
Proof.
  intros H. apply Qcle_trans with (qsum (map (fun x => w x * c)%Qc W)).
  - unfold avg. clear w_total. induction W as [|x l IH]; [apply Qcle_refl|]. cbn [map qsum]. apply Qcplus_le_compat; [|apply IH; auto with datatypes].
    apply Qcmult_le_l; auto with datatypes.
  - rewrite (qsum_map_ext _ (fun x => c * w x)%Qc) by (intros; ring). rewrite qsum_mult_l. change (fun x => w x) with w. rewrite w_total, Qcmult_1_r. apply Qcle_refl.
Qed.

Variable U : (dict string -> Qc) -> dict string -> Qc.
Hypothesis UA : averaging W U.
Variable e : Qc.
Hypothesis e0 : (0 <= e)%Qc.
Hypothesis UH : forall x y, In x W -> In y W -> reaches W U e x y.

Lemma minor h x : (forall s, In s W -> 0 <= h s)%Qc -> In x W -> (e * avg h <= U h x)%Qc.
Proof.
  intros P X. replace (e * avg h)%Qc with (avg (fun s => e * h s + 0)%Qc) by (rewrite avg_affine; ring). apply avg_le. intros s S. rewrite Qcplus_0_r. now apply UH.
Qed.
Lemma lower f mu d x : avg f = mu -> (forall s, In s W -> mu - d <= f s)%Qc -> In x W -> (mu - (1 - e) * d <= U f x)%Qc.
Proof.
  intros M H X. assert (P : (e * avg (fun s => 1 * f s + (d - mu)) <= U (fun s => 1 * f s + (d - mu)) x)%Qc).
  { apply minor; [|exact X]. intros s S. specialize (H s S). apply Qcle_minus_iff in H. replace (1 * f s + (d - mu))%Qc with (f s + - (mu - d))%Qc by ring. exact H. }
  rewrite avg_affine, (av_affine _ _ UA), M in P by exact X. apply Qcle_minus_iff in P. apply Qcle_minus_iff.
  replace (U f x + - (mu - (1 - e) * d))%Qc with (1 * U f x + (d - mu) + - (e * (1 * mu + (d - mu))))%Qc by ring. exact P.
Qed.

Definition near (f : dict string -> Qc) (mu d : Qc) : Prop := forall x, In x W -> (mu - d <= f x)%Qc /\ (f x <= mu + d)%Qc.

Lemma near_step f mu d : avg f = mu -> near f mu d -> near (U f) mu ((1 - e) * d)%Qc.
Proof.
  intros M H x X. split; [apply lower; auto; intros s S; now apply H|].
  assert (L : ((- mu) - (1 - e) * d <= U (fun s => (-(1)) * f s + 0) x)%Qc).
  { apply lower; [rewrite avg_affine, M; ring| |exact X]. intros s S. destruct (H s S) as [_ B]. apply Qcle_minus_iff in B. apply Qcle_minus_iff.
    replace (-(1) * f s + 0 + - (- mu - d))%Qc with (mu + d + - f s)%Qc by ring. exact B. }
  rewrite (av_affine _ _ UA) in L by exact X. apply Qcle_minus_iff in L. apply Qcle_minus_iff.
  replace (mu + (1 - e) * d + - U f x)%Qc with (-(1) * U f x + 0 + - (- mu - (1 - e) * d))%Qc by ring. exact L.
Qed.
End Abstract.

Lemma iter_avg W T n : averaging W T -> averaging W (iter T n).
Proof.
  intros A. induction n as [|n IH]; [exact (avg_id W)|]. exact (avg_comp W T (iter T n) A IH).
Qed.

Section Chain.
Variable W : list (dict string).
Variable w : dict string -> Qc.
Hypothesis w_nonneg : forall x, In x W -> (0 <= w x)%Qc.
Hypothesis w_total : qsum (map w W) = 1%Qc.
Variable T : (dict string -> Qc) -> dict string -> Qc.
Hypothesis TA : averaging W T.
Hypothesis TI : forall h, avg W w (T h) = avg W w h.
Variable r : nat.
Variable e : Qc.
Hypothesis e0 : (0 <= e)%Qc.
Hypothesis TH : forall x y, In x W -> In y W -> reaches W (iter T r) e x y.

Lemma iter_keeps n h : avg W w (iter T n h) = avg W w h.
Proof. induction n as [|n IH]; cbn [iter]; [reflexivity|]. now rewrite TI. Qed.

Lemma iter_near k h : (forall s, In s W -> (0 <= h s)%Qc /\ (h s <= 1)%Qc) -> near W (iter T (r * k) h) (avg W w h) (powc (1 - e)%Qc k).
Proof.
  intros H. induction k as [|k IH].
  - rewrite Nat.mul_0_r. cbn [iter powc]. intros x X. destruct (H x X) as [A B].
    assert (L : (0 <= avg W w h)%Qc) by (apply qsum_nonneg, Forall_forall; intros z Z; apply in_map_iff in Z as (s & <- & S); apply Qcmult_nonneg; [auto|now apply H]).
    assert (R : (avg W w h <= 1)%Qc) by (apply (avg_le W w w_nonneg w_total); intros s S; now apply H).
    split.
    + apply Qcle_trans with 0%Qc; [|exact A]. apply Qcle_minus_iff in R. apply Qcle_minus_iff. replace (0 + - (avg W w h - 1))%Qc with (1 + - avg W w h)%Qc by ring. exact R.
    + apply Qcle_trans with 1%Qc; [exact B|]. rewrite <- (Qcplus_0_l 1) at 1. apply Qcplus_le_compat; [exact L|apply Qcle_refl].
  - replace (r * S k) with (r + r * k) by lia. rewrite iter_add. cbn [powc].
    apply (near_step W w w_nonneg w_total _ (iter_avg W T r TA) e TH); [apply iter_keeps|exact IH].
Qed.

Lemma near_iter n f mu d : near W f mu d -> near W (iter T n f) mu d.
Proof.
  intros H x X. pose proof (iter_avg W T n TA) as A. split.
  - assert (P : (0 <= iter T n (fun s => 1 * f s + (d - mu))%Qc x)%Qc).
    { apply (av_mono _ _ A); [|exact X]. intros s S. destruct (H s S) as [B _]. apply Qcle_minus_iff in B.
      replace (1 * f s + (d - mu))%Qc with (f s + - (mu - d))%Qc by ring. exact B. }
    rewrite (av_affine _ _ A) in P by exact X. apply Qcle_minus_iff. replace (iter T n f x + - (mu - d))%Qc with (1 * iter T n f x + (d - mu))%Qc by ring. exact P.
  - assert (P : (0 <= iter T n (fun s => -(1) * f s + (mu + d))%Qc x)%Qc).
    { apply (av_mono _ _ A); [|exact X]. intros s S. destruct (H s S) as [_ B]. apply Qcle_minus_iff in B.
      replace (-(1) * f s + (mu + d))%Qc with (mu + d + - f s)%Qc by ring. exact B. }
    rewrite (av_affine _ _ A) in P by exact X. apply Qcle_minus_iff. replace (mu + d + - iter T n f x)%Qc with (-(1) * iter T n f x + (mu + d))%Qc by ring. exact P.
Qed.

Lemma iter_close n h : 0 < r -> (forall s, In s W -> (0 <= h s)%Qc /\ (h s <= 1)%Qc) ->
  near W (iter T n h) (avg W w h) (powc (1 - e)%Qc (n / r)).
Proof.
  intros R H. rewrite (Nat.div_mod n r) at 1 by lia. rewrite Nat.add_comm, iter_add. apply near_iter. now apply iter_near.
Qed.
End Chain.

(** ** The chains of the model *)
Section Net.
Variable b : bn.
Hypothesis SN : sampled_net b.
Variable ev : dict string.
Let WB := sn_bn b SN.
Notation W := (worlds b ev).
Notation L := (possible b ev).

(** A lower bound for the probability of every single move between possible states. *)
Definition low (d : Qc) : Prop := forall n, In n (bnodes b) -> In (dn_name n) (free_vars b ev) ->
  forall t x i, In x L -> i < length (values_of b (dn_name n)) -> In (dset (dn_name n) (nth i (values_of b (dn_name n)) "") x) L -> (d <= move b t n x i)%Qc.

Lemma move_low : exists d, (0 < d)%Qc /\ (d <= 1)%Qc /\ low d.
Proof.
  set (P := fun (n : dnode) (d : Qc) => In (dn_name n) (free_vars b ev) -> forall t x i, In x L -> i < length (values_of b (dn_name n)) ->
    In (dset (dn_name n) (nth i (values_of b (dn_name n)) "") x) L -> (d <= move b t n x i)%Qc).
  apply (each_low (bnodes b) P).
  { intros n d d' H _ LE V t x i X I Y. eapply Qcle_trans; [exact LE|]. now apply H. }
  intros n Hn. destruct (in_dec string_dec (dn_name n) (free_vars b ev)) as [V|V]; [|exists 1%Qc; split; [reflexivity|intros V2; now elim V]].
  destruct (each_low (list_prod [Gibbs; MetropolisHastings] (list_prod L (seq 0 (length (values_of b (dn_name n))))))
    (fun p d => In (dset (dn_name n) (nth (snd (snd p)) (values_of b (dn_name n)) "") (fst (snd p))) L -> (d <= move b (fst p) n (fst (snd p)) (snd (snd p)))%Qc)) as (d & D & _ & H).
  - intros p d d' H _ LE Y. eapply Qcle_trans; eauto.
  - intros [t [x i]] H. apply in_prod_iff in H as [_ H]. apply in_prod_iff in H as [X I]. apply in_seq in I. cbn [fst snd].
    destruct (in_dec (list_eq_dec (fun p q : string * string => ltac:(decide equality; apply string_dec))) (dset (dn_name n) (nth i (values_of b (dn_name n)) "") x) L) as [Y|Y].
    + exists (move b t n x i). split; [|intros _; apply Qcle_refl]. apply (move_pos b SN ev 1 Nat.lt_0_1); auto; lia.
    + exists 1%Qc. split; [reflexivity|]. intros; contradiction.
  - exists d. split; [exact D|]. intros _ t x i X I Y. apply (H (t, (x, i))); [|exact Y]. apply in_prod; [destruct t; cbn; auto|]. apply in_prod; [exact X|apply in_seq; lia].
Qed.

Lemma incl_tail {A} (v : A) vs l : incl (v :: vs) l -> incl vs l.
Proof. intros I x X. apply I. now right. Qed.

Definition setall (vs : list string) (y x : dict string) : dict string := fold_left (fun s v => dset v (look y v) s) vs x.

Lemma look_setall vs y : forall x v, look (setall vs y x) v = if mem v vs then look y v else look x v.
Proof.
  induction vs as [|u vs IH]; intros x v; [reflexivity|]. cbn [setall fold_left]. fold (setall vs y (dset u (look y u) x)). rewrite IH.
  unfold mem. cbn [existsb]. fold (mem v vs). destruct (mem v vs) eqn:M; [now rewrite orb_true_r|]. rewrite orb_false_r.
  destruct (String.eqb_spec v u) as [->|N]; [now rewrite look_dset|now rewrite look_dset_neq].
Qed.

Lemma worlds_value x v : In x W -> In v (bnames b) -> In (look x v) (values_of b v).
Proof. intros X V. destruct (worlds_complete b SN ev x X v V) as (a & A & I). now rewrite (look_dget _ _ _ A). Qed.

Lemma setall_worlds vs y : In y W -> incl vs (free_vars b ev) -> forall x, In x W -> In (setall vs y x) W.
Proof.
  intros Y. induction vs as [|v vs IH]; intros I x X; [exact X|]. cbn [setall fold_left]. apply IH; [eauto using incl_tail|].
  assert (V : In v (free_vars b ev)) by (apply I; now left). apply worlds_dset; auto. apply worlds_value; auto. now apply (free_spec b SN) in V as [V _].
Qed.

Lemma worlds_ext x y : In x W -> In y W -> (forall v, In v (free_vars b ev) -> look x v = look y v) -> x = y.
Proof.
  intros X Y E. apply (states_ext (bvars b)).
  - rewrite bvars_names. apply (wb_names b WB).
  - now apply filter_In in X.
  - now apply filter_In in Y.
  - intros v V. rewrite bvars_names in V. destruct (in_dec string_dec v (dkeys ev)) as [K|K]; [|apply E, (free_spec b SN); now split].
    apply filter_In in X as [_ X], Y as [_ Y]. unfold dkeys in K. apply in_map_iff in K as ([u a] & EE & K). cbn in EE. subst u.
    unfold agrees in X, Y. rewrite forallb_forall in X, Y. specialize (X _ K). specialize (Y _ K). cbn in X, Y. apply String.eqb_eq in X, Y. congruence.
Qed.

Lemma setall_all x y : In x W -> In y W -> setall (free_vars b ev) y x = y.
Proof.
  intros X Y. apply worlds_ext; [now apply setall_worlds|exact Y|]. intros v V. rewrite look_setall. now rewrite (proj2 (mem_In v _) V).
Qed.

(** Setting variables to the values of a state that differs in one variable. *)
Lemma setall_one vs v y x : In x W -> In y W -> incl vs (free_vars b ev) -> (forall u, u <> v -> look y u = look x u) -> setall vs y x = x \/ setall vs y x = y.
Proof.
  intros X Y I E. assert (Z := setall_worlds vs y Y I x X). destruct (mem v vs) eqn:M; [right|left].
  - apply worlds_ext; auto. intros u _. rewrite look_setall. destruct (string_dec u v) as [->|N]; [now rewrite M|]. rewrite (E u N). now destruct (mem u vs).
  - apply worlds_ext; auto. intros u _. rewrite look_setall. destruct (string_dec u v) as [->|N]; [now rewrite M|]. rewrite (E u N). now destruct (mem u vs).
Qed.

(** Paths with their lengths. *)
Inductive linkn : nat -> dict string -> dict string -> Prop :=
| linkn_here x : linkn 0 x x
| linkn_step k x v a y : In (dset v a x) L -> linkn k (dset v a x) y -> linkn (S k) x y.

Lemma linked_linkn x y : linked b ev x y -> exists k, linkn k x y.
Proof. induction 1 as [x|x v a y Y _ [k K]]; [exists 0; constructor|]. exists (S k). econstructor; eauto. Qed.

Definition within_links (K : nat) : Prop := forall x y, In x L -> In y L -> exists k, k <= K /\ linkn k x y.

Lemma links_bound : connected b ev -> exists K, 0 < K /\ within_links K.
Proof.
  intros CO. assert (H : forall ps, incl ps (list_prod L L) -> exists K, forall p, In p ps -> exists k, k <= K /\ linkn k (fst p) (snd p)).
  { induction ps as [|[x y] ps IH]; intros I; [exists 0; intros p []|]. destruct IH as (K & H); [intros p P; apply I; now right|].
    assert (XY := I _ (or_introl eq_refl)). apply in_prod_iff in XY as [X Y]. destruct (linked_linkn x y (CO x y X Y)) as (k & E).
    exists (K + k). intros p [<-|P]; [exists k; split; [lia|exact E]|]. destruct (H p P) as (k' & LE & E'). exists k'. split; [lia|exact E']. }
  destruct (H (list_prod L L) (incl_refl _)) as (K & HK). exists (S K). split; [lia|]. intros x y X Y.
  destruct (HK (x, y) (in_prod L L x y X Y)) as (k & LE & E). exists k. split; [lia|exact E].
Qed.

Variable N : nat.
Hypothesis N0 : 0 < N.
Hypothesis GF : gibbs_fine b ev N.
Hypothesis MF : mh_fine b ev N.
Hypothesis DF : div_fine b N.
Hypothesis VF : free_vars b ev <> [] -> Nat.divide (length (free_vars b ev)) N.

Lemma sweep_avg t vs : incl vs (free_vars b ev) -> averaging L (mean N (per_variable t * length vs) (sweep b t vs)).
Proof.
  induction vs as [|v vs IH]; intros I.
  - cbn [length sweep]. rewrite Nat.mul_0_r. eapply avg_same; [|exact (avg_id L)]. intros h x _. now rewrite mean_pause.
  - cbn [length sweep]. rewrite Nat.mul_succ_r, Nat.add_comm.
    apply (avg_same L (fun h => mean N (per_variable t) (one b t v) (mean N (per_variable t * length vs) (sweep b t vs) h))); [intros h x _; now apply mean_follow|]. apply avg_comp; [apply one_avg; auto; apply I; now left|apply IH; eauto using incl_tail].
Qed.

Notation len := (length (free_vars b ev)).
Notation pickm t := (mean N (S (per_variable t)) (pickp (free_vars b ev) (one b t))).

Lemma len_pos : free_vars b ev <> [] -> 0 < len.
Proof. destruct (free_vars b ev); [contradiction|cbn; lia]. Qed.

Lemma pick_avg t : free_vars b ev <> [] -> averaging L (pickm t).
Proof.
  intros NE. apply (avg_mix L len (fun i => mean N (per_variable t) (one b t (nth i (free_vars b ev) "")))).
  - now apply len_pos.
  - intros i I. apply one_avg; auto. now apply nth_In.
  - intros h x X. apply mean_pick; auto.
Qed.

Notation stepm t full := (mean N (per_step t full (free_vars b ev)) (stepp b t full (free_vars b ev))).

Lemma step_avg t full : full = true \/ free_vars b ev <> [] -> averaging L (stepm t full).
Proof.
  intros F. destruct full; unfold stepp, per_step; [apply sweep_avg; apply incl_refl|]. destruct F as [F|F]; [discriminate|]. now apply pick_avg.
Qed.

Section Low.
Variable d : Qc.
Hypothesis d0 : (0 < d)%Qc.
Hypothesis d1 : (d <= 1)%Qc.
Hypothesis LOW : low d.

Lemma one_low t v x a : In v (free_vars b ev) -> In x L -> In a (values_of b v) -> In (dset v a x) L ->
  reaches L (mean N (per_variable t) (one b t v)) d x (dset v a x).
Proof.
  intros V X A Y. destruct (free_node b SN ev v V) as (n & Hn & <-). destruct (In_nth _ _ "" A) as (i & I & <-).
  apply (reaches_le L _ (move b t n x i)).
  - exact Y.
  - now apply LOW.
  - now apply (one_hits b SN ev N).
Qed.

Lemma sweep_reaches t y : In y W -> forall vs, incl vs (free_vars b ev) -> forall x, In x L -> (forall k, In (setall (firstn k vs) y x) L) ->
  reaches L (mean N (per_variable t * length vs) (sweep b t vs)) (powc d (length vs)) x (setall vs y x).
Proof.
  intros Y. induction vs as [|v vs IH]; intros I x X K.
  - cbn [length sweep powc setall fold_left]. rewrite Nat.mul_0_r. intros h P. rewrite mean_pause, Qcmult_1_l by exact N0. apply Qcle_refl.
  - cbn [length sweep powc setall fold_left]. fold (setall vs y (dset v (look y v) x)). rewrite Nat.mul_succ_r, Nat.add_comm.
    assert (V : In v (free_vars b ev)) by (apply I; now left). assert (V' := proj1 (proj1 (free_spec b SN ev v) V)). assert (K1 := K 1). cbn [firstn setall fold_left] in K1.
    apply (reaches_same L (fun h => mean N (per_variable t) (one b t v) (mean N (per_variable t * length vs) (sweep b t vs) h))); [intros h; now apply mean_follow|]. apply (reaches_comp L _ _ _ _ _ (dset v (look y v) x)).
    + apply sweep_avg; eauto using incl_tail.
    + now apply Qclt_le_weak.
    + apply one_low; auto. now apply worlds_value.
    + apply IH; eauto using incl_tail. intros k. exact (K (S k)).
Qed.

Lemma pick_reaches t y : free_vars b ev <> [] -> In y W -> forall vs, incl vs (free_vars b ev) -> forall x, In x L -> (forall k, In (setall (firstn k vs) y x) L) ->
  reaches L (iter (pickm t) (length vs)) (powc (/ qnat len * d)%Qc (length vs)) x (setall vs y x).
Proof.
  intros NE Y. induction vs as [|v vs IH]; intros I x X K.
  - intros h P. cbn [length iter powc setall fold_left]. rewrite Qcmult_1_l. apply Qcle_refl.
  - cbn [length iter powc setall fold_left]. fold (setall vs y (dset v (look y v) x)).
    assert (V : In v (free_vars b ev)) by (apply I; now left). assert (V' := proj1 (proj1 (free_spec b SN ev v) V)). assert (K1 := K 1). cbn [firstn setall fold_left] in K1.
    apply (reaches_comp L (pickm t) (iter (pickm t) (length vs)) _ _ _ (dset v (look y v) x)).
    + apply iter_avg. now apply pick_avg.
    + apply Qclt_le_weak, Qcmult_pos; [|exact d0]. apply Qcinv_pos, qnat_pos. now apply len_pos.
    + destruct (In_nth _ _ "" V) as (i & LT & E).
      apply (reaches_mix L len (fun i => mean N (per_variable t) (one b t (nth i (free_vars b ev) ""))) _ _ _ _ i LT X).
      * intros k KK. apply one_avg; auto. now apply nth_In.
      * intros h z Z. apply mean_pick; auto.
      * rewrite E. apply one_low; auto. now apply worlds_value.
    + apply IH; eauto using incl_tail. intros k. exact (K (S k)).
Qed.

(** A block of steps in which all variables can be set in turn. *)
Definition chance_of_any (full : bool) : Qc := if full then powc d len else powc (/ qnat len * d)%Qc len.

Lemma block_reaches t full x y : full = true \/ free_vars b ev <> [] -> In x L -> In y W -> (forall k, In (setall (firstn k (free_vars b ev)) y x) L) ->
  reaches L (iter (stepm t full) (round b ev full)) (chance_of_any full) x y.
Proof.
  intros F X Y K. rewrite <- (setall_all x y (live_world b ev x X) Y). destruct full; unfold stepp, per_step, round, chance_of_any.
  - cbn [iter]. apply (sweep_reaches t y Y (free_vars b ev) (incl_refl _) x X K).
  - destruct F as [F|F]; [discriminate|]. apply (pick_reaches t y F Y _ (incl_refl _) x X K).
Qed.

Lemma powc_pos c m : (0 < c)%Qc -> (0 < powc c m)%Qc.
Proof. intros C. induction m as [|m IH]; [reflexivity|]. now apply Qcmult_pos. Qed.

Lemma any_pos full : full = true \/ free_vars b ev <> [] -> (0 < chance_of_any full)%Qc.
Proof.
  intros F. destruct full; unfold chance_of_any; apply powc_pos; [exact d0|]. destruct F as [F|F]; [discriminate|].
  apply Qcmult_pos; [|exact d0]. apply Qcinv_pos, qnat_pos. now apply len_pos.
Qed.

(** All states possible: one block leads everywhere. *)
Lemma step_reaches t full x y : (forall x, In x W -> In x L) -> full = true \/ free_vars b ev <> [] -> In x L -> In y L ->
  reaches L (iter (stepm t full) (round b ev full)) (chance_of_any full) x y.
Proof.
  intros A F X Y. apply block_reaches; auto; [now apply live_world|]. intros k. apply A. apply setall_worlds; [now apply live_world| |now apply live_world].
  intros v V. rewrite <- (firstn_skipn k (free_vars b ev)). apply in_or_app. now left.
Qed.

(** Linked states: as many blocks as there are links, or more. *)
Lemma link_reaches t full x v a : full = true \/ free_vars b ev <> [] -> In x L -> In (dset v a x) L ->
  reaches L (iter (stepm t full) (round b ev full)) (chance_of_any full) x (dset v a x).
Proof.
  intros F X Y. apply block_reaches; auto; [now apply live_world|]. intros k.
  assert (I : incl (firstn k (free_vars b ev)) (free_vars b ev)) by (intros u U; rewrite <- (firstn_skipn k (free_vars b ev)); apply in_or_app; now left).
  destruct (setall_one (firstn k (free_vars b ev)) v (dset v a x) x (live_world b ev x X) (live_world b ev _ Y) I) as [->| ->]; auto.
  intros u NU. now apply look_dset_neq.
Qed.

Lemma stay_reaches t full x : full = true \/ free_vars b ev <> [] -> In x L -> reaches L (iter (stepm t full) (round b ev full)) (chance_of_any full) x x.
Proof.
  intros F X. apply block_reaches; auto; [now apply live_world|]. intros k.
  assert (I : incl (firstn k (free_vars b ev)) (free_vars b ev)) by (intros u U; rewrite <- (firstn_skipn k (free_vars b ev)); apply in_or_app; now left).
  destruct (setall_one (firstn k (free_vars b ev)) "" x x (live_world b ev x X) (live_world b ev x X) I) as [->| ->]; auto.
Qed.

Lemma blocks_stay t full k x : full = true \/ free_vars b ev <> [] -> In x L -> reaches L (iter (stepm t full) (k * round b ev full)) (powc (chance_of_any full) k) x x.
Proof.
  intros F X. induction k as [|k IH]; [intros h P; cbn [Nat.mul iter powc]; rewrite Qcmult_1_l; apply Qcle_refl|]. cbn [Nat.mul powc].
  apply (reaches_same L (fun h => iter (stepm t full) (round b ev full) (iter (stepm t full) (k * round b ev full) h))); [intros h; now rewrite iter_add|].
  apply (reaches_comp L _ _ _ _ _ x); [apply iter_avg, step_avg, F|apply Qclt_le_weak, any_pos, F|now apply stay_reaches|exact IH].
Qed.

Lemma blocks_reach t full j x y : full = true \/ free_vars b ev <> [] -> In x L -> linkn j x y ->
  forall k, j <= k -> reaches L (iter (stepm t full) (k * round b ev full)) (powc (chance_of_any full) k) x y.
Proof.
  intros F X K. induction K as [x|j x v a y Y K IH]; intros k LK; [now apply blocks_stay|]. destruct k as [|k]; [lia|]. cbn [Nat.mul powc].
  apply (reaches_same L (fun h => iter (stepm t full) (round b ev full) (iter (stepm t full) (k * round b ev full) h))); [intros h; now rewrite iter_add|].
  apply (reaches_comp L _ _ _ _ _ (dset v a x)); [apply iter_avg, step_avg, F|apply Qclt_le_weak, any_pos, F|now apply link_reaches|]. apply IH; [exact Y|lia].
Qed.

Lemma rounds K t full x y : within_links K -> full = true \/ free_vars b ev <> [] -> In x L -> In y L ->
  reaches L (iter (stepm t full) (K * round b ev full)) (powc (chance_of_any full) K) x y.
Proof. intros WL F X Y. destruct (WL x y X Y) as (k & LE & E). now apply (blocks_reach t full k). Qed.
End Low.
Lemma mean_burn c F h n : forall x, mean N (n * c) (burnp c F n) h x = iter (mean N c F) n h x.
Proof.
  induction n as [|n IH]; intros x; [now apply mean_pause|]. cbn [burnp iter Nat.mul]. rewrite mean_follow by exact N0. apply mean_ext. exact IH.
Qed.

Notation total := (qsum (map (joint b) W)).

Lemma total_pos x : In x L -> (0 < total)%Qc.
Proof.
  intros X. apply Qclt_le_trans with (joint b x); [now apply (live_pos b ev)|].
  apply In_qsum_le; [|apply in_map; now apply live_world]. apply Forall_forall. intros z Z. apply in_map_iff in Z as (s & <- & _). now apply joint_nonneg.
Qed.

Lemma sum_live (f : dict string -> Qc) : qsum (map (fun s => joint b s * f s)%Qc L) = qsum (map (fun s => joint b s * f s)%Qc W).
Proof.
  unfold possible. rewrite qsum_filter. apply qsum_map_ext. intros s S. destruct (qltb 0%Qc (joint b s)) eqn:E; [reflexivity|].
  destruct (joint_pos_or_zero b SN s) as [Z|P]; [rewrite Z; ring|]. apply qltb_true in P. rewrite P in E. discriminate.
Qed.

Lemma steps_near t full r e k h x : full = true \/ free_vars b ev <> [] -> 0 < r -> (0 <= e)%Qc ->
  (forall x y, In x L -> In y L -> reaches L (iter (stepm t full) r) e x y) ->
  (forall s, In s L -> (0 <= h s)%Qc /\ (h s <= 1)%Qc) -> In x L ->
  let mu := (qsum (map (fun s => joint b s * h s)%Qc W) / total)%Qc in
  let p := powc (1 - e)%Qc (k / r) in
  (mu - p <= iter (stepm t full) k h x)%Qc /\ (iter (stepm t full) k h x <= mu + p)%Qc.
Proof.
  intros F R E0 RE H X mu p. assert (T0 := total_pos x X).
  assert (TN : total <> 0%Qc) by (intros E; rewrite E in T0; now apply Qc_lt_irrefl in T0).
  set (c := per_step t full (free_vars b ev)). set (w := fun s => (joint b s / total)%Qc).
  assert (MU : forall f, avg L w f = (qsum (map (fun s => joint b s * f s)%Qc W) / total)%Qc).
  { intros f. unfold avg, w, Qcdiv. rewrite <- sum_live. rewrite (Qcmult_comm (qsum _)), <- qsum_mult_l. apply qsum_map_ext. intros s _. ring. }
  unfold mu. rewrite <- MU. apply (iter_close L w) with (x := x); auto.
  - intros s S. unfold w. apply Qcdiv_nonneg; [now apply joint_nonneg|exact T0].
  - transitivity (avg L w (fun _ => 1%Qc)); [unfold avg; apply qsum_map_ext; intros; ring|]. rewrite MU.
    rewrite (qsum_map_ext _ (joint b)) by (intros; ring). unfold Qcdiv. now apply Qcmult_inv_r.
  - now apply step_avg.
  - intros f. rewrite !MU. f_equal. pose proof (step_invariant b ev N N0 SN GF MF DF VF t full F f) as SI. fold c in SI.
    apply (Qcmult_cancel (powc (qnat N * qnat N) c)); [apply powc_neq0, NN_neq0; exact N0|]. rewrite <- SI, <- qsum_mult_l. apply qsum_map_ext. intros s S.
    rewrite (eq_mean N N0). fold c. ring.
Qed.

End Net.
