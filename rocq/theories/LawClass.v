(** Chains whose possible states are not all linked. *)
From Coq Require Import Field QArith.
From Verif Require Import Base NDArray Factor Exact Spec OrderSpec BaseFacts NDArrayFacts FactorFacts FactorProofs SpecFacts Sampling MCSpec MCFacts MCProof MCTop MCChain MCForward MCMarginal
  LawSpec LawCount LawKernel LawOne LawChain LawPost LawMean LawErgodic LawForward LawMCMC LawEstimate LawTop LawLinked LawLarge LawSpread DecInv.

(** ** Being linked is decidable *)
Section Paths.
Context {A : Type}.
Variable R : A -> A -> Prop.
Hypothesis dec : forall x y : A, {x = y} + {x <> y}.
Hypothesis Rdec : forall x y, {R x y} + {~ R x y}.

(** Paths through the listed states. *)
Inductive path (l : list A) : A -> A -> Prop :=
| path_one x y : R x y -> path l x y
| path_more x z y : R x z -> In z l -> path l z y -> path l x y.

Lemma path_weaken l l' x y : incl l l' -> path l x y -> path l' x y.
Proof. intros I. induction 1; [now apply path_one|]. eapply path_more; eauto. Qed.

Lemma path_app l x z y : path l x z -> In z l -> path l z y -> path l x y.
Proof. induction 1 as [x z H|x w z H W P IH]; intros Z Q; [now apply path_more with z|]. apply path_more with w; auto. Qed.

Lemma path_cons a l x y : path (a :: l) x y <-> path l x y \/ path l x a /\ path l a y.
Proof.
  split.
  - induction 1 as [x y H|x z y H [<-|Z] P IH].
    + left. now apply path_one.
    + right. split; [now apply path_one|]. destruct IH as [IH|[_ IH]]; exact IH.
    + destruct IH as [IH|[I1 I2]]; [left; now apply path_more with z|right]. split; [now apply path_more with z|exact I2].
  - intros [H|[H1 H2]]; [apply (path_weaken l); auto with datatypes|].
    apply path_app with a; [apply (path_weaken l); auto with datatypes|now left|apply (path_weaken l); auto with datatypes].
Qed.

Lemma path_dec l : forall x y, {path l x y} + {~ path l x y}.
Proof.
  induction l as [|a l IH]; intros x y.
  - destruct (Rdec x y) as [H|H]; [left; now apply path_one|right]. intros P. inversion P; subst; [contradiction|]. contradiction.
  - destruct (IH x y) as [H|H]; [left; apply path_cons; now left|].
    destruct (IH x a) as [H1|H1]; [|right; intros P; apply path_cons in P as [P|[P _]]; contradiction].
    destruct (IH a y) as [H2|H2]; [left; apply path_cons; now right|right; intros P; apply path_cons in P as [P|[_ P]]; contradiction].
Qed.
End Paths.

Definition state_dec : forall x y : dict string, {x = y} + {x <> y} := list_eq_dec (fun p q : string * string => ltac:(decide equality; apply string_dec)).

Section Net.
Variable b : bn.
Hypothesis SN : sampled_net b.
Variable ev : dict string.
Hypothesis IN : incl (dkeys ev) (bnames b).
Notation W := (worlds b ev).
Notation L := (possible b ev).

Lemma live_key v a x : In (dset v a x) L -> In v (bnames b).
Proof.
  intros Y. apply live_world, filter_In in Y as [Y _]. apply states_keys in Y. rewrite bvars_names in Y. rewrite <- Y. apply (In_dkeys_dset v). now left.
Qed.

(** The possible state [y] differs from the possible state [x] in one variable at most. *)
Definition next (x y : dict string) : Prop := In x L /\ In y L /\ exists v, y = dset v (look y v) x.

Lemma next_dset v a x : In x L -> In (dset v a x) L -> next x (dset v a x).
Proof. intros X Y. split; [exact X|]. split; [exact Y|]. exists v. unfold look. now rewrite dget_dset_eq. Qed.

Lemma next_dec x y : {next x y} + {~ next x y}.
Proof.
  destruct (in_dec state_dec x L) as [X|X]; [|right; intros [H _]; contradiction].
  destruct (in_dec state_dec y L) as [Y|Y]; [|right; intros (_ & H & _); contradiction].
  destruct (existsb (fun v => if state_dec y (dset v (look y v) x) then true else false) (bnames b)) eqn:E.
  - left. split; [exact X|]. split; [exact Y|]. apply existsb_exists in E as (v & _ & E). exists v. now destruct (state_dec y (dset v (look y v) x)).
  - right. intros (_ & _ & v & EQ). assert (T : existsb (fun v => if state_dec y (dset v (look y v) x) then true else false) (bnames b) = true); [|rewrite T in E; discriminate].
    apply existsb_exists. exists v. split; [rewrite EQ in Y; exact (live_key v _ x Y)|]. destruct (state_dec y (dset v (look y v) x)); [reflexivity|contradiction].
Qed.

(** A link can be followed in both directions. *)
Lemma next_back v a x : In x L -> In (dset v a x) L -> x = dset v (look x v) (dset v a x).
Proof.
  intros X Y. assert (V := live_key v a x Y). rewrite dset_dset. symmetry. apply dset_same.
  destruct (worlds_complete b SN ev x (live_world b ev x X) v V) as (z & E & _). now rewrite E, (look_dget _ _ _ E).
Qed.

Lemma linked_trans x y z : linked b ev x y -> linked b ev y z -> linked b ev x z.
Proof. induction 1 as [x|x v a y X H IH]; intros Z; [exact Z|]. apply linked_step with v a; auto. Qed.

Lemma linked_sym x y : In x L -> linked b ev x y -> linked b ev y x.
Proof.
  intros X H. revert X. induction H as [x|x v a y Y H IH]; intros X; [constructor|]. specialize (IH Y).
  rewrite (next_back v a x X Y) at 1. apply linked_next; [exact IH|]. now rewrite <- next_back.
Qed.

Lemma linked_in x y : In x L -> linked b ev x y -> In y L.
Proof. intros X H. revert X. induction H; auto. Qed.

Lemma linked_path x y : In x L -> In y L -> (linked b ev x y <-> x = y \/ path next L x y).
Proof.
  intros X Y. split.
  - intros H. revert X. induction H as [x|x v a y X' H IH]; intros X; [now left|]. right. destruct (IH Y X') as [<-|P].
    + apply path_one. now apply next_dset.
    + apply path_more with (dset v a x); auto. now apply next_dset.
  - assert (N1 : forall x y, next x y -> linked b ev x y).
    { intros u w (U & V & v & E). rewrite E. apply linked_step with v (look w v); [now rewrite <- E|constructor]. }
    intros [<-|P]; [constructor|]. clear X Y. induction P as [x y H|x z y H Z P IH]; [now apply N1|]. now apply linked_trans with z; [apply N1|].
Qed.

Lemma tells_some : exists c, tells b ev c.
Proof.
  exists (fun x y => if state_dec x y then true else if path_dec next next_dec L x y then true else false). intros x y X Y. rewrite (linked_path x y X Y).
  destruct (state_dec x y) as [E|E]; [split; auto|]. destruct (path_dec next next_dec L x y) as [P|P]; split; auto; [discriminate|]. intros [H|H]; contradiction.
Qed.

(** ** One class *)
Variable f : dict string -> bool.
Hypothesis CL : forall s v a, In s L -> In (dset v a s) L -> f (dset v a s) = f s.
Notation M := (filter f L).

(** Operators that do not mix a class with its complement. *)
Definition apart (T : (dict string -> Qc) -> dict string -> Qc) : Prop :=
  averaging L T /\ forall h x, In x L -> T (fun s => ind (f s) * h s)%Qc x = (ind (f x) * T h x)%Qc.

Lemma apart_id : apart (fun h => h).
Proof. split; [apply avg_id|reflexivity]. Qed.

Lemma apart_same T U : (forall h x, In x L -> U h x = T h x) -> apart T -> apart U.
Proof. intros E [A B]. split; [now apply (avg_same L T)|]. intros h x X. rewrite !E by exact X. auto. Qed.

Lemma apart_comp T U : apart T -> apart U -> apart (fun h => T (U h)).
Proof.
  intros [A B] [A' B']. split; [now apply avg_comp|]. intros h x X. rewrite <- B by exact X. apply (av_ext _ _ A); auto.
Qed.

Lemma apart_iter T n : apart T -> apart (iter T n).
Proof. intros A. induction n as [|n IH]; [apply apart_id|]. cbn [iter]. now apply (apart_comp T (iter T n)). Qed.

Lemma apart_mix (n : nat) (T : nat -> (dict string -> Qc) -> dict string -> Qc) U : 0 < n -> (forall i, i < n -> apart (T i)) ->
  (forall h x, In x L -> U h x = / qnat n * bigsum n (fun i => T i h x))%Qc -> apart U.
Proof.
  intros n0 A E. split; [apply (avg_mix L n T U n0); auto; intros i I; now apply A|]. intros h x X. rewrite !E by exact X.
  rewrite (bigsum_ext n _ (fun i => ind (f x) * T i h x)%Qc) by (intros i I; now apply A). unfold bigsum. rewrite qsum_mult_l. ring.
Qed.

Variable N : nat.
Hypothesis N0 : 0 < N.
Hypothesis GF : gibbs_fine b ev N.
Hypothesis MF : mh_fine b ev N.
Hypothesis DF : div_fine b N.
Hypothesis VF : free_vars b ev <> [] -> Nat.divide (length (free_vars b ev)) N.

Lemma trial_apart n i : In n (bnodes b) -> In (dn_name n) (free_vars b ev) -> i < length (values_of b (dn_name n)) -> apart (trial b n i).
Proof.
  intros Hn V I. split; [now apply (trial_avg b SN ev)|]. intros h x X. unfold trial. set (s := dset (dn_name n) (nth i (values_of b (dn_name n)) "") x). cbv zeta.
  destruct (dset_live b SN ev (dn_name n) i x V X I) as [Y|Z]; [fold s in Y; unfold s; rewrite (CL x _ _ X Y); fold s; ring|].
  unfold s. rewrite (acc_dead b SN ev n i x Hn X Z). ring.
Qed.

Lemma one_apart t v : In v (free_vars b ev) -> apart (mean N (per_variable t) (one b t v)).
Proof.
  intros V. destruct t; cbn [per_variable].
  - split; [exact (one_avg b SN ev N N0 GF MF DF Gibbs v V)|]. intros h x X. rewrite !(mean_gibbs b SN ev N N0 GF v _ x V X).
    unfold bigsum. rewrite <- qsum_mult_l. apply qsum_map_ext. intros i I. apply in_seq in I.
    destruct (dset_live b SN ev v i x V X ltac:(lia)) as [Y|Z]; [rewrite (CL x _ _ X Y); ring|]. rewrite Z. unfold Qcdiv. ring.
  - destruct (free_node b SN ev v V) as (n & Hn & <-). apply (apart_mix (length (values_of b (dn_name n))) (trial b n)).
    + now apply (values_lt b SN ev N N0).
    + intros i I. now apply trial_apart.
    + intros h x X. apply (mean_mh b SN ev N N0 MF DF); auto. now apply (live_world b ev).
Qed.

Lemma sweep_apart t vs : incl vs (free_vars b ev) -> apart (mean N (per_variable t * length vs) (sweep b t vs)).
Proof.
  induction vs as [|v vs IH]; intros I.
  - cbn [length sweep]. rewrite Nat.mul_0_r. eapply apart_same; [|exact apart_id]. intros h x _. now rewrite mean_pause.
  - cbn [length sweep]. rewrite Nat.mul_succ_r, Nat.add_comm.
    apply (apart_same (fun h => mean N (per_variable t) (one b t v) (mean N (per_variable t * length vs) (sweep b t vs) h))); [intros h x _; now apply mean_follow|].
    apply apart_comp; [apply one_apart; apply I; now left|apply IH; intros u U; apply I; now right].
Qed.

Notation len := (length (free_vars b ev)).
Notation stepm t full := (mean N (per_step t full (free_vars b ev)) (stepp b t full (free_vars b ev))).

Lemma step_apart t full : full = true \/ free_vars b ev <> [] -> apart (stepm t full).
Proof.
  intros F. destruct full; unfold stepp, per_step; [apply sweep_apart; apply incl_refl|]. destruct F as [F|F]; [discriminate|].
  apply (apart_mix len (fun i => mean N (per_variable t) (one b t (nth i (free_vars b ev) "")))).
  - destruct (free_vars b ev); [contradiction|cbn; lia].
  - intros i I. apply one_apart. now apply nth_In.
  - intros h x X. apply mean_pick; auto.
Qed.

(** Restriction to the class. *)
Lemma in_class x : In x M <-> In x L /\ f x = true.
Proof. apply filter_In. Qed.

Lemma apart_class T : apart T -> averaging M T.
Proof.
  intros [A B]. assert (K : forall h x, In x M -> T h x = T (fun s => ind (f s) * h s)%Qc x).
  { intros h x X. apply in_class in X as [X E]. rewrite (B h x X), E. cbn [ind]. ring. }
  split.
  - intros g h E x X. rewrite (K g x X), (K h x X). apply in_class in X as [X _]. apply (av_ext _ _ A); [|exact X]. intros s S.
    destruct (f s) eqn:FS; cbn [ind]; [|ring]. rewrite (E s); [reflexivity|]. now apply in_class.
  - intros a c h x X. apply in_class in X as [X _]. now apply (av_affine _ _ A).
  - intros h P x X. rewrite (K h x X). apply in_class in X as [X _]. apply (av_mono _ _ A); [|exact X]. intros s S.
    destruct (f s) eqn:FS; cbn [ind]; [|rewrite Qcmult_0_l; apply Qcle_refl]. rewrite Qcmult_1_l. apply P. now apply in_class.
Qed.

Lemma apart_reaches T e x y : apart T -> In x M -> In y M -> reaches L T e x y -> reaches M T e x y.
Proof.
  intros [A B] X Y H h P. apply in_class in X as [X FX], Y as [Y FY].
  specialize (H (fun s => ind (f s) * h s)%Qc). cbv beta in H. rewrite (B h x X), FX, FY in H. cbn [ind] in H. rewrite !Qcmult_1_l in H. apply H.
  intros s S. destruct (f s) eqn:FS; cbn [ind]; [|rewrite Qcmult_0_l; apply Qcle_refl]. rewrite Qcmult_1_l. apply P. now apply in_class.
Qed.

Lemma sum_class (g : dict string -> Qc) : qsum (map (fun s => joint b s * g s)%Qc M) = qsum (map (fun s => joint b s * (ind (f s) * g s))%Qc W).
Proof.
  rewrite <- (sum_live b SN ev (fun s => ind (f s) * g s)%Qc), qsum_filter. apply qsum_map_ext. intros s _. destruct (f s); cbn [ind]; ring.
Qed.

Notation total := (qsum (map (joint b) M)).

Lemma class_pos x : In x M -> (0 < total)%Qc.
Proof.
  intros X. apply Qclt_le_trans with (joint b x); [apply in_class in X as [X _]; now apply (live_pos b ev)|].
  apply In_qsum_le; [|now apply in_map]. apply Forall_forall. intros z Z. apply in_map_iff in Z as (s & <- & _). now apply joint_nonneg.
Qed.

Lemma class_near t full r e k h x : full = true \/ free_vars b ev <> [] -> 0 < r -> (0 <= e)%Qc ->
  (forall x y, In x M -> In y M -> reaches L (iter (stepm t full) r) e x y) ->
  (forall s, In s M -> (0 <= h s)%Qc /\ (h s <= 1)%Qc) -> In x M ->
  let mu := (qsum (map (fun s => joint b s * h s)%Qc M) / total)%Qc in
  let p := powc (1 - e)%Qc (k / r) in
  (mu - p <= iter (stepm t full) k h x)%Qc /\ (iter (stepm t full) k h x <= mu + p)%Qc.
Proof.
  intros F R E0 RE H X mu p. assert (T0 := class_pos x X).
  assert (TN : total <> 0%Qc) by (intros E; rewrite E in T0; now apply Qc_lt_irrefl in T0).
  set (c := per_step t full (free_vars b ev)). set (w := fun s => (joint b s / total)%Qc). assert (AP := step_apart t full F).
  assert (MU : forall g, avg M w g = (qsum (map (fun s => joint b s * g s)%Qc M) / total)%Qc).
  { intros g. unfold avg, w, Qcdiv. rewrite (Qcmult_comm (qsum _)), <- qsum_mult_l. apply qsum_map_ext. intros s _. ring. }
  unfold mu. rewrite <- MU. apply (iter_close M w) with (x := x); auto.
  - intros s S. unfold w. apply Qcdiv_nonneg; [now apply joint_nonneg|exact T0].
  - transitivity (avg M w (fun _ => 1%Qc)); [unfold avg; apply qsum_map_ext; intros; ring|]. rewrite MU.
    rewrite (qsum_map_ext _ (joint b)) by (intros; ring). unfold Qcdiv. now apply Qcmult_inv_r.
  - now apply apart_class.
  - intros g. rewrite !MU. f_equal. rewrite !sum_class. pose proof (step_invariant b ev N N0 SN GF MF DF VF t full F (fun s => ind (f s) * g s)%Qc) as SI. fold c in SI.
    apply (Qcmult_cancel (powc (qnat N * qnat N) c)); [apply powc_neq0, NN_neq0; exact N0|]. rewrite <- SI, <- qsum_mult_l. apply qsum_map_ext. intros s S.
    destruct (dead b SN ev s S) as [SL|Z]; [|rewrite Z; ring].
    rewrite (eq_mean N N0). assert (PG := proj2 AP g s SL). fold c in PG. rewrite PG. ring.
  - intros y z Y Z. apply apart_reaches; auto. now apply apart_iter.
Qed.
End Net.
