(** Expectations of programs that draw random numbers, exactly. *)
From Coq Require Import Field QArith.
From Verif Require Import Base NDArray Factor Exact Spec OrderSpec BaseFacts FactorProofs SpecFacts Sampling MCSpec MCFacts MCProof MCTop MCChain
  LawSpec LawCount LawKernel LawOne LawChain LawPost.

Lemma states_dset vars v l a : NoDup (map fst vars) -> In (v, l) vars -> In a l -> forall s, In s (states vars) -> In (dset v a s) (states vars).
Proof.
  induction vars as [|[u us] vars IH]; intros ND H A s S; [destruct H|]. cbn [states] in S |- *. cbn [map fst] in ND. inversion ND as [|? ? C D]; subst.
  apply in_flat_map in S as (z & Z & S). apply in_map_iff in S as (s' & <- & S). apply in_flat_map. cbn [dset]. destruct (String.eqb_spec v u) as [->|N].
  - assert (l = us). { destruct H as [H|H]; [now inversion H|]. exfalso. apply C. exact (in_map fst _ _ H). } subst us.
    exists a. split; [exact A|]. now apply in_map.
  - exists z. split; [exact Z|]. apply in_map. apply IH; auto. destruct H as [H|H]; [inversion H; subst; contradiction|exact H].
Qed.

Lemma states_ext vars s y : NoDup (map fst vars) -> In s (states vars) -> In y (states vars) ->
  (forall v, In v (map fst vars) -> look s v = look y v) -> s = y.
Proof.
  revert s y. induction vars as [|[u us] vars IH]; intros s y ND S Y E; cbn [states] in S, Y.
  - destruct S as [<-|[]], Y as [<-|[]]. reflexivity.
  - cbn [map fst] in ND. inversion ND as [|? ? C D]; subst. apply in_flat_map in S as (z & Z & S), Y as (w & W & Y).
    apply in_map_iff in S as (s' & <- & S), Y as (y' & <- & Y). pose proof (E u (or_introl eq_refl)) as EU. unfold look in EU. cbn [dget] in EU.
    rewrite String.eqb_refl in EU. subst w. f_equal. apply IH; auto. intros v V. pose proof (E v (or_intror V)) as EV. unfold look in EV |- *. cbn [dget] in EV.
    destruct (String.eqb_spec v u) as [->|_]; [contradiction|exact EV].
Qed.

(** ** Averages over a list of states *)
Section Averages.
Variable W : list (dict string).
Record averaging (T : (dict string -> Qc) -> dict string -> Qc) : Prop := {
  av_ext : forall f g, (forall s, In s W -> f s = g s) -> forall x, In x W -> T f x = T g x;
  av_affine : forall a c f x, In x W -> T (fun s => a * f s + c)%Qc x = (a * T f x + c)%Qc;
  av_mono : forall f, (forall s, In s W -> 0 <= f s)%Qc -> forall x, In x W -> (0 <= T f x)%Qc
}.

Lemma avg_id : averaging (fun h => h).
Proof. split; auto. Qed.

Lemma avg_same T U : (forall h x, In x W -> U h x = T h x) -> averaging T -> averaging U.
Proof.
  intros E A. split.
  - intros f g EQ x X. rewrite !E by exact X. now apply (av_ext T A).
  - intros a c f x X. rewrite !E by exact X. now apply (av_affine T A).
  - intros f P x X. rewrite E by exact X. now apply (av_mono T A).
Qed.

Lemma avg_comp T U : averaging T -> averaging U -> averaging (fun h => T (U h)).
Proof.
  intros A B. split.
  - intros f g E x X. apply (av_ext T A); auto. intros s S. now apply (av_ext U B).
  - intros a c f x X. rewrite <- (av_affine T A) by exact X. apply (av_ext T A); auto. intros s S. now apply (av_affine U B).
  - intros f P x X. apply (av_mono T A); auto. intros s S. now apply (av_mono U B).
Qed.

(** Convex combinations of evaluations at states. *)
Lemma avg_sum (T : (dict string -> Qc) -> dict string -> Qc) (n : dict string -> nat) (p : dict string -> nat -> Qc) (y : dict string -> nat -> dict string) :
  (forall h x, In x W -> T h x = bigsum (n x) (fun i => p x i * h (y x i))%Qc) ->
  (forall x, In x W -> bigsum (n x) (p x) = 1%Qc) -> (forall x i, In x W -> i < n x -> (0 <= p x i)%Qc /\ (p x i = 0%Qc \/ In (y x i) W)) -> averaging T.
Proof.
  intros E S1 P. split.
  - intros f g EQ x X. rewrite !E by exact X. apply bigsum_ext. intros i I. destruct (P x i X I) as [_ [Z|Y]]; [rewrite Z; ring|now rewrite EQ].
  - intros a c f x X. rewrite !E by exact X.
    rewrite (bigsum_ext _ _ (fun i => a * (p x i * f (y x i)) + p x i * c))%Qc by (intros; ring).
    rewrite bigsum_plus, bigsum_mult_l, bigsum_mult_r, (S1 x X). ring.
  - intros f F x X. rewrite E by exact X. apply bigsum_nonneg. intros i I. destruct (P x i X I) as [P1 [Z|P2]].
    + rewrite Z, Qcmult_0_l. apply Qcle_refl.
    + apply Qcmult_nonneg; auto.
Qed.

Lemma avg_mix (n : nat) (T : nat -> (dict string -> Qc) -> dict string -> Qc) U : 0 < n -> (forall i, i < n -> averaging (T i)) ->
  (forall h x, In x W -> U h x = / qnat n * bigsum n (fun i => T i h x))%Qc -> averaging U.
Proof.
  intros n0 A E. assert (Q0 : qnat n <> 0%Qc) by now apply qnat_neq0. assert (Q1 : (0 < / qnat n)%Qc) by (apply Qcinv_pos; now apply qnat_pos). split.
  - intros f g EQ x X. rewrite !E by exact X. f_equal. apply bigsum_ext. intros i I. now apply (av_ext _ (A i I)).
  - intros a c f x X. rewrite !E by exact X. rewrite (bigsum_ext _ _ (fun i => a * T i f x + c)%Qc) by (intros i I; now apply (av_affine _ (A i I))).
    rewrite bigsum_plus, bigsum_mult_l. unfold bigsum at 2. rewrite qsum_const, seq_length.
    transitivity (a * (/ qnat n * bigsum n (fun i => T i f x)) + qnat n * / qnat n * c)%Qc; [ring|]. rewrite Qcmult_inv_r by exact Q0. ring.
  - intros f F x X. rewrite E by exact X. apply Qcmult_nonneg; [now apply Qclt_le_weak|]. apply bigsum_nonneg. intros i I. now apply (av_mono _ (A i I)).
Qed.

Lemma bigsum_ge_term n (F : nat -> Qc) k : k < n -> (forall i, i < n -> (0 <= F i)%Qc) -> (F k <= bigsum n F)%Qc.
Proof.
  intros K P. unfold bigsum. apply In_qsum_le.
  - apply Forall_forall. intros w H. apply in_map_iff in H as (i & <- & H). apply in_seq in H. apply P. lia.
  - apply in_map, in_seq. lia.
Qed.

(** [y] is reached from [x] with at least the probability [e]. *)
Definition reaches (T : (dict string -> Qc) -> dict string -> Qc) (e : Qc) (x y : dict string) : Prop :=
  forall h, (forall s, In s W -> 0 <= h s)%Qc -> (e * h y <= T h x)%Qc.

Lemma reaches_comp T U e e' x y z : averaging U -> (0 <= e)%Qc -> reaches T e x y -> reaches U e' y z -> reaches (fun h => T (U h)) (e * e')%Qc x z.
Proof.
  intros A E H1 H2 h P. apply Qcle_trans with (e * U h y)%Qc.
  - rewrite <- Qcmult_assoc, !(Qcmult_comm e). apply Qcmult_le_compat_r; auto.
  - apply H1. intros s S. now apply (av_mono U A).
Qed.

Lemma reaches_same T U e x y : (forall h, U h x = T h x) -> reaches T e x y -> reaches U e x y.
Proof. intros E H h P. rewrite E. now apply H. Qed.

Lemma reaches_le T e e' x y : In y W -> (e' <= e)%Qc -> reaches T e x y -> reaches T e' x y.
Proof. intros Y L H h P. eapply Qcle_trans; [|apply H; exact P]. apply Qcmult_le_compat_r; auto. Qed.

Lemma reaches_mix (n : nat) (T : nat -> (dict string -> Qc) -> dict string -> Qc) U e x y k : k < n -> In x W -> (forall i, i < n -> averaging (T i)) ->
  (forall h x, In x W -> U h x = / qnat n * bigsum n (fun i => T i h x))%Qc -> reaches (T k) e x y -> reaches U (/ qnat n * e)%Qc x y.
Proof.
  intros K X A E H h P. rewrite E by exact X. rewrite <- Qcmult_assoc, !(Qcmult_comm (/ qnat n)). apply Qcmult_le_compat_r.
  - eapply Qcle_trans; [apply H; exact P|]. apply (bigsum_ge_term n (fun i => T i h x) k K). intros i I. now apply (av_mono _ (A i I)).
  - apply Qclt_le_weak, Qcinv_pos, qnat_pos. lia.
Qed.

Lemma reaches_sum T (x : dict string) n p y k : In x W -> (forall h, T h x = bigsum n (fun i => p i * h (y i))%Qc) -> k < n ->
  (forall i, i < n -> (0 <= p i)%Qc /\ (p i = 0%Qc \/ In (y i) W)) -> reaches T (p k) x (y k).
Proof.
  intros X E K P h H. rewrite E. apply (bigsum_ge_term n (fun i => (p i * h (y i))%Qc) k K). intros i I. destruct (P i I) as [P1 [Z|P2]]; [rewrite Z, Qcmult_0_l; apply Qcle_refl|]. apply Qcmult_nonneg; auto.
Qed.

End Averages.

Section Net.
Variable b : bn.
Hypothesis SN : sampled_net b.
Variable ev : dict string.
Variable N : nat.
Hypothesis N0 : 0 < N.
Let WB := sn_bn b SN.
Notation NN := (qnat N * qnat N)%Qc.

Lemma NN_neq0 : NN <> 0%Qc.
Proof. intros E. apply Qcmult_integral in E as [E|E]; now apply (qnat_neq0 N N0). Qed.

Lemma worlds_dset v a x : In v (free_vars b ev) -> In a (values_of b v) -> In x (worlds b ev) -> In (dset v a x) (worlds b ev).
Proof.
  intros V A X. apply (free_spec b SN) in V as [V NV]. apply filter_In in X as [X G]. apply filter_In. split; [|now rewrite agrees_dset].
  apply (states_dset _ _ (values_of b v)); auto.
  - rewrite (bvars_names b). apply (wb_names b WB).
  - now apply bvars_values.
Qed.

Definition mean (c : nat) (F : prog) (h : dict string -> Qc) (x : dict string) : Qc :=
  (qsum (map (fun l => val h (F x l)) (streams N c)) / powc NN c)%Qc.

Lemma mean_eq c F h x r : (qsum (map (fun l => val h (F x l)) (streams N c)) = powc NN c * r)%Qc -> mean c F h x = r.
Proof.
  intros E. unfold mean. rewrite E. unfold Qcdiv. rewrite (Qcmult_comm (powc NN c)), <- Qcmult_assoc, Qcmult_inv_r; [ring|].
  apply powc_neq0, NN_neq0.
Qed.
Lemma eq_mean c F h x : (qsum (map (fun l => val h (F x l)) (streams N c)) = powc NN c * mean c F h x)%Qc.
Proof.
  unfold mean, Qcdiv. rewrite (Qcmult_comm (powc NN c)), <- Qcmult_assoc, (Qcmult_comm (/ _)), Qcmult_inv_r; [ring|].
  apply powc_neq0, NN_neq0.
Qed.

Lemma mean_ext c F f g x : (forall s, f s = g s) -> mean c F f x = mean c F g x.
Proof. intros E. unfold mean. f_equal. apply qsum_map_ext. intros l _. destruct (F x l); cbn [val]; auto. Qed.

Lemma mean_pause h x : mean 0 pause h x = h x.
Proof. apply mean_eq. cbn [streams map powc qsum]. unfold pause. cbn [val]. ring. Qed.

Lemma mean_follow c F d G h x : mean (c + d) (follow c F G) h x = mean c F (mean d G h) x.
Proof.
  apply mean_eq. rewrite powc_add. transitivity (powc NN d * (powc NN c * mean c F (mean d G h) x))%Qc; [|ring]. rewrite <- eq_mean, <- qsum_mult_l.
  rewrite streams_split. apply qsum_map_ext. intros l1 L1. unfold follow, val at 2.
  pose proof (proj1 (Forall_forall _ _) (streams_length N c) l1 L1) as E.
  destruct (F x l1) as [s|e] eqn:FE.
  - rewrite <- eq_mean. apply qsum_map_ext. intros l2 _. now rewrite <- E, firstn_app, Nat.sub_diag, firstn_all, skipn_app, skipn_all, Nat.sub_diag, app_nil_r, FE.
  - rewrite qsum_zero; [ring|]. intros l2 _. now rewrite <- E, firstn_app, Nat.sub_diag, firstn_all, app_nil_r, FE.
Qed.

Lemma mean_pick vars F c h x : vars <> [] -> Nat.divide (length vars) N ->
  mean (S c) (pickp vars F) h x = (/ qnat (length vars) * bigsum (length vars) (fun i => mean c (F (nth i vars "")) h x))%Qc.
Proof.
  intros NE D. set (n := length vars). assert (n0 : 0 < n) by (unfold n; destruct vars; [contradiction|cbn; lia]).
  assert (Q0 : qnat n <> 0%Qc) by now apply qnat_neq0. apply mean_eq. cbn [powc].
  set (G := fun i => qsum (map (fun l => val h (F (nth i vars "") x l)) (streams N c))).
  assert (E : (qnat n * qsum (map (fun l => val h (pickp vars F x l)) (streams N (S c))) = NN * bigsum n G)%Qc).
  { rewrite streams_S. unfold draws. rewrite qsum_prod.
    transitivity (qnat n * qsum (map (fun _ : Qc => qsum (map (fun c0 => G (Nat.modulo c0 n)) (seq 0 N))) (grid N)))%Qc.
    - reflexivity.
    - rewrite qsum_const, grid_length. replace (NN * bigsum n G)%Qc with (qnat N * (qnat N * bigsum n G))%Qc by ring.
      rewrite <- (mod_count N n G n0 D). ring. }
  apply (Qcmult_cancel (qnat n)); [exact Q0|]. rewrite E. unfold G.
  rewrite (bigsum_ext _ _ (fun i => powc NN c * mean c (F (nth i vars "")) h x)%Qc) by (intros; apply eq_mean). rewrite bigsum_mult_l.
  transitivity (qnat n * / qnat n * (NN * (powc NN c * bigsum n (fun i => mean c (F (nth i vars "")) h x))))%Qc; [rewrite Qcmult_inv_r by exact Q0|]; ring.
Qed.

(** ** One variable, in possible states *)
Notation W := (worlds b ev).
Notation L := (possible b ev).
Hypothesis GF : gibbs_fine b ev N.
Hypothesis MF : mh_fine b ev N.
Hypothesis DF : div_fine b N.

Lemma live_world x : In x L -> In x W.
Proof. intros H. now apply filter_In in H. Qed.
Lemma live_pos x : In x L -> (0 < joint b x)%Qc.
Proof. intros H. apply filter_In in H as [_ H]. now apply qltb_true. Qed.
Lemma live_spec x : In x L <-> In x W /\ (0 < joint b x)%Qc.
Proof. unfold possible. now rewrite filter_In, qltb_true. Qed.
Lemma dead x : In x W -> In x L \/ joint b x = 0%Qc.
Proof. intros X. destruct (joint_pos_or_zero b SN x) as [E|P]; [now right|left]. now apply live_spec. Qed.

Lemma tot_pos v x : In v (free_vars b ev) -> In x L -> (0 < qsum (column b v x))%Qc.
Proof.
  intros V X. apply column_positive; auto; [now apply (worlds_complete b SN ev), live_world| |now apply live_pos]. now apply (free_spec b SN) in V as [V _].
Qed.

Lemma mean_gibbs v h x : In v (free_vars b ev) -> In x L -> mean 1 (one b Gibbs v) h x =
  bigsum (length (values_of b v)) (fun i => joint b (dset v (nth i (values_of b v) "") x) / qsum (column b v x) * h (dset v (nth i (values_of b v) "") x))%Qc.
Proof. intros V X. apply mean_eq. rewrite (gibbs_sum b SN ev N N0 v x h GF V (live_world x X) (tot_pos v x V X)). cbn [powc]. ring. Qed.

Definition trial (n : dnode) (i : nat) (h : dict string -> Qc) (x : dict string) : Qc :=
  let s := dset (dn_name n) (nth i (values_of b (dn_name n)) "") x in (acc b n s x * (h s - h x) + h x)%Qc.

Lemma mean_mh n h x : In n (bnodes b) -> In (dn_name n) (free_vars b ev) -> In x W -> mean 2 (one b MetropolisHastings (dn_name n)) h x =
  (/ qnat (length (values_of b (dn_name n))) * bigsum (length (values_of b (dn_name n))) (fun i => trial n i h x))%Qc.
Proof.
  intros Hn V X. assert (Q : qnat (length (values_of b (dn_name n))) <> 0%Qc) by (apply (values_pos b SN N N0); exact (in_map dn_name _ _ Hn)). apply mean_eq.
  apply (Qcmult_cancel (qnat (length (values_of b (dn_name n))))); [exact Q|]. rewrite (mh_sum b SN ev N N0 n x h MF DF Hn V X). cbn [powc]. unfold trial. cbv zeta.
  match goal with |- (_ * ?s = ?q * (_ * (/ ?q * ?s)))%Qc => transitivity (q * / q * (NN * NN * s))%Qc; [rewrite Qcmult_inv_r by exact Q|] end; ring.
Qed.

Lemma acc_range n z y : In n (bnodes b) -> (0 <= acc b n z y)%Qc /\ (acc b n z y <= 1)%Qc.
Proof. intros Hn. apply accept_range; apply blanket_nonneg; auto; apply (sn_nonneg b SN). Qed.

Lemma one_minus a : (a <= 1)%Qc -> (0 <= 1 - a)%Qc.
Proof. intros H. now apply Qcle_minus_iff in H. Qed.

Lemma dset_live v i x : In v (free_vars b ev) -> In x L -> i < length (values_of b v) ->
  In (dset v (nth i (values_of b v) "") x) L \/ joint b (dset v (nth i (values_of b v) "") x) = 0%Qc.
Proof. intros V X I. apply dead. apply worlds_dset; auto; [now apply nth_In|now apply live_world]. Qed.

Lemma blanket_pos n z : In n (bnodes b) -> (0 < joint b z)%Qc -> (0 < blanket b n z)%Qc.
Proof.
  intros Hn P. apply Qc_nonneg_neq0_pos; [apply blanket_nonneg; auto; apply (sn_nonneg b SN)|]. intros E.
  rewrite (joint_split b WB n z Hn), E, Qcmult_0_l in P. now apply Qc_lt_irrefl in P.
Qed.

(** Impossible proposals are never accepted. *)
Lemma acc_dead n i x : In n (bnodes b) -> In x L -> let s := dset (dn_name n) (nth i (values_of b (dn_name n)) "") x in
  joint b s = 0%Qc -> acc b n s x = 0%Qc.
Proof.
  intros Hn X s E. pose proof (live_pos x X) as P. pose proof (blanket_pos n x Hn P) as BP.
  rewrite (joint_split b WB n x Hn) in P. rewrite (joint_split b WB n s Hn) in E. unfold s in E. rewrite (outside_same b) in E. fold s in E.
  assert (OZ : outside b (dn_name n) x <> 0%Qc) by (intros Z; rewrite Z, Qcmult_0_r in P; now apply Qc_lt_irrefl in P).
  apply Qcmult_integral in E as [E|E]; [|contradiction]. unfold acc, accept_prob. rewrite E.
  destruct (qeqb (blanket b n x) 0%Qc) eqn:Q; [apply qeqb_true in Q; rewrite Q in BP; now apply Qc_lt_irrefl in BP|].
  unfold Qcdiv. rewrite Qcmult_0_l. reflexivity.
Qed.

Lemma trial_avg n i : In n (bnodes b) -> In (dn_name n) (free_vars b ev) -> i < length (values_of b (dn_name n)) -> averaging L (trial n i).
Proof.
  intros Hn V I. set (s := fun x => dset (dn_name n) (nth i (values_of b (dn_name n)) "") x).
  apply (avg_sum L _ (fun _ => 2) (fun x k => match k with 0 => acc b n (s x) x | _ => 1 - acc b n (s x) x end)%Qc (fun x k => match k with 0 => s x | _ => x end)).
  - intros h x X. rewrite !bigsum_S. unfold bigsum. cbn [seq map qsum]. unfold trial. fold (s x). cbv zeta. ring.
  - intros x X. rewrite !bigsum_S. unfold bigsum. cbn [seq map qsum]. ring.
  - intros x k X K. destruct (acc_range n (s x) x Hn). destruct k as [|k]; (split; [auto using one_minus|]); [|now right].
    destruct (dset_live (dn_name n) i x V X I) as [Y|E]; [now right|left]. now apply acc_dead.
Qed.

Lemma gibbs_terms v x i : In v (free_vars b ev) -> In x L -> i < length (values_of b v) ->
  let p := (joint b (dset v (nth i (values_of b v) "") x) / qsum (column b v x))%Qc in
  (0 <= p)%Qc /\ (p = 0%Qc \/ In (dset v (nth i (values_of b v) "") x) L).
Proof.
  intros V X I p. split.
  - apply Qcdiv_nonneg; [now apply joint_nonneg|now apply tot_pos].
  - destruct (dset_live v i x V X I) as [Y|E]; [now right|left]. unfold p. rewrite E. unfold Qcdiv. ring.
Qed.

Lemma free_node v : In v (free_vars b ev) -> exists n, In n (bnodes b) /\ dn_name n = v.
Proof. intros V. apply (free_spec b SN) in V as [V _]. apply in_map_iff in V as (n & E & H). now exists n. Qed.

Lemma values_lt v : In v (free_vars b ev) -> 0 < length (values_of b v).
Proof.
  intros V. apply (free_spec b SN) in V as [V _]. pose proof (values_pos b SN N N0 v V) as Q. destruct (values_of b v); [exfalso; now apply Q|cbn; lia].
Qed.

Lemma one_avg t v : In v (free_vars b ev) -> averaging L (mean (per_variable t) (one b t v)).
Proof.
  intros V. destruct t; cbn [per_variable].
  - apply (avg_sum L _ (fun _ => length (values_of b v)) (fun x i => joint b (dset v (nth i (values_of b v) "") x) / qsum (column b v x))%Qc (fun x i => dset v (nth i (values_of b v) "") x)).
    + intros h x X. now apply mean_gibbs.
    + intros x X. unfold Qcdiv. rewrite bigsum_mult_r.
      replace (bigsum (length (values_of b v)) (fun i => joint b (dset v (nth i (values_of b v) "") x))) with (qsum (column b v x)) by (unfold column; rewrite sum_values; reflexivity).
      apply Qcmult_inv_r. intros E. pose proof (tot_pos v x V X) as P. rewrite E in P. now apply Qc_lt_irrefl in P.
    + intros x i X I. now apply gibbs_terms.
  - destruct (free_node v V) as (n & Hn & <-). apply (avg_mix L (length (values_of b (dn_name n))) (trial n)).
    + now apply values_lt.
    + intros i I. now apply trial_avg.
    + intros h x X. apply mean_mh; auto using live_world.
Qed.

(** The probability of setting [v] to its [i]-th value. *)
Definition move (t : transition) (n : dnode) (x : dict string) (i : nat) : Qc :=
  let v := dn_name n in
  let s := dset v (nth i (values_of b v) "") x in
  match t with Gibbs => joint b s / qsum (column b v x) | MetropolisHastings => / qnat (length (values_of b v)) * acc b n s x end%Qc.

Lemma one_hits t n x i : In n (bnodes b) -> In (dn_name n) (free_vars b ev) -> In x L -> i < length (values_of b (dn_name n)) ->
  reaches L (mean (per_variable t) (one b t (dn_name n))) (move t n x i) x (dset (dn_name n) (nth i (values_of b (dn_name n)) "") x).
Proof.
  intros Hn V X I. set (v := dn_name n) in *. unfold move. fold v. cbv zeta. destruct t; cbn [per_variable].
  - apply (reaches_sum L _ x (length (values_of b v)) (fun i => joint b (dset v (nth i (values_of b v) "") x) / qsum (column b v x))%Qc (fun i => dset v (nth i (values_of b v) "") x) i X); auto.
    + intros h. now apply mean_gibbs.
    + intros k K. now apply gibbs_terms.
  - apply (reaches_mix L (length (values_of b v)) (trial n) _ _ x _ i I X).
    + intros k K. now apply trial_avg.
    + intros h y Y. apply mean_mh; auto using live_world.
    + intros h P. unfold trial. fold v. set (s := dset v (nth i (values_of b v) "") x). cbv zeta. destruct (acc_range n s x Hn) as [A0 A1].
      replace (acc b n s x * (h s - h x) + h x)%Qc with (acc b n s x * h s + (1 - acc b n s x) * h x)%Qc by ring.
      rewrite <- (Qcplus_0_r (acc b n s x * h s)) at 1. apply Qcplus_le_compat; [apply Qcle_refl|]. apply Qcmult_nonneg; [now apply one_minus|auto].
Qed.

Lemma move_pos t n x i : In n (bnodes b) -> In (dn_name n) (free_vars b ev) -> In x L -> i < length (values_of b (dn_name n)) ->
  In (dset (dn_name n) (nth i (values_of b (dn_name n)) "") x) L -> (0 < move t n x i)%Qc.
Proof.
  intros Hn V X I Y. unfold move. cbv zeta. destruct t.
  - unfold Qcdiv. apply Qcmult_pos; [now apply live_pos|]. apply Qcinv_pos. now apply tot_pos.
  - apply Qcmult_pos; [apply Qcinv_pos, qnat_pos; lia|]. set (s := dset (dn_name n) (nth i (values_of b (dn_name n)) "") x) in *.
    unfold acc, accept_prob. destruct (qeqb (blanket b n x) 0%Qc); [reflexivity|]. destruct (qltb _ _); [|reflexivity].
    unfold Qcdiv. apply Qcmult_pos; [apply blanket_pos; auto using live_pos|]. apply Qcinv_pos. apply blanket_pos; auto using live_pos.
Qed.
End Net.
