(** Proofs for UnitSpec.v. *)
From Verif Require Import Base BaseFacts NDArray NDArrayFacts SumCalc Factor FactorFacts Exact Spec SpecFacts Node Network NetSpec NetFacts NetInv
  NetView NetTable MCSpec Decision DecSpec DecInv DecVE DecView DecNorm DecFacts DecOpt DecErr DecErr3 DynPure UnitSpec.
From Coq Require Import Field.

Notation old w p := (deref (dheap w) (snd p)).

(** The tables while decisions are optimised. *)
Section Ready.
Context {SO : SetOrder} {BO : BagOrder}.
Variables w w1 : dworld.
Variable fixed : dict string.
Variable order : list string.
Hypothesis I : dinv w.
Hypothesis I1 : dinv w1.
Hypothesis T : dtidy w.
Hypothesis L1 : dlook w1 = dlook w.
Hypothesis R : forall v i n, dholds w v i n -> exists n', dholds w1 v i n' /\ ready fixed order v n n'.
Hypothesis Q : forall v, In v order -> optimisable w fixed v.
Let SB : same_but w w1 order := ready_same w w1 fixed order L1 R.

Lemma ready_kinds v i n : In v order -> dholds w v i n -> nkind n = KDecision.
Proof. intros V H. destruct (Q v V) as (j & m & Hm & K & _). assert (m = n) by (destruct Hm, H; congruence). congruence. Qed.

Lemma ready_entry p s : In p (filter (fun p => notu (old w p)) (dlook w)) -> In s (states (bvars (dbn w))) ->
  entry (snapshot_node (dheap w1) (old w1 p)) s = stance order fixed (snapshot_node (dheap w) (old w p)) s.
Proof.
  intros Hp Hs. apply filter_In in Hp as [Hp U]. destruct (same_entry w w1 order I SB p Hp) as (H & H' & F & P & B).
  unfold stance. cbn [snapshot_node dn_name dn_values]. rewrite (dnamed w I _ _ _ H).
  destruct (mem (fst p) order) eqn:M; [|apply mem_nIn in M; rewrite (snap_same w w1 order I I1 SB p Hp M); reflexivity].
  apply mem_In in M. destruct (R _ _ _ H) as (n' & H2 & _ & RB). assert (n' = old w1 p) by (destruct H', H2; congruence). subst n'. specialize (RB M).
  assert (K : has_values (old w p)).
  { apply (chance_kind w I _ _ _ H). destruct (is_utility (old w p)); [discriminate|reflexivity]. }
  unfold face in F. injection F as F1 F2 F3.
  assert (SL := states_legal (bvars (dbn w))). rewrite bnames_bvars in SL. specialize (SL (wb_names _ (dbn_wf w I T)) s Hs).
  assert (Iv : In (look s (fst p)) (nvalues (old w p))).
  { apply (SL (fst p)). rewrite <- (dbn_values w I T _ _ _ H K). apply (bvars_in (dbn w) (dbn_wf w I T)), (dbn_name w I _ _ _ H K). }
  unfold entry. cbn [map]. rewrite (dshown w1 I1 _ _ _ H'), map_map. cbn [fst snd snapshot_node dn_cpd dn_name dn_values].
  rewrite F2, F3, (dnamed w I _ _ _ H), P.
  assert (IB : inb (shape (tarr (ncpd (old w p)))) (position (look s (fst p)) (nvalues (old w p)) :: map (fun q => position (look s q) (dvals w1 q)) (nporder (old w p)))).
  { rewrite (dshape w I _ _ _ H). assert (NE : nvalues (old w p) <> []) by (intros Z; rewrite Z in Iv; destruct Iv).
    rewrite (own_dims_values _ K NE). constructor; [apply idx_lt, Iv|]. apply inb_map. intros q Iq.
    destruct (parent_dvals w I T _ _ _ q H Iq) as [E1 E2]. rewrite (same_vals w w1 order I SB). apply idx_lt. rewrite <- E1. apply (SL q).
    apply (bvars_in (dbn w) (dbn_wf w I T)), E2. }
  destruct (dget (fst p) fixed) as [d|] eqn:D.
  - destruct RB as (t & En & RT & ST & V). rewrite En at 1. cbn [ncpd with_cpd]. rewrite V by (rewrite ST; exact IB).
    destruct (Q _ M) as (i & n & H3 & _ & Id). assert (n = old w p) by (destruct H, H3; congruence). subst n. specialize (Id d D).
    change position with idx. destruct (String.eqb_spec (look s (fst p)) d) as [->|N]; [rewrite Nat.eqb_refl; reflexivity|].
    destruct (Nat.eqb_spec (idx d (nvalues (old w p))) (idx (look s (fst p)) (nvalues (old w p)))) as [E3|_]; [|reflexivity].
    apply idx_inj in E3; [congruence|exact Id|exact Iv].
  - destruct RB as (t & En & RT & ST & V). rewrite En at 1. cbn [ncpd with_cpd]. apply V. rewrite ST. exact IB.
Qed.

Lemma prepared_sum v d U : plan_sum w1 [(v, d)] U = stance_sum w order fixed v d U.
Proof.
  unfold plan_sum, stance_sum. rewrite (bvars_same w w1 order I SB). apply qsum_map_ext. intros s Hs. apply filter_In in Hs as [Hs _]. f_equal.
  unfold open_nodes, dbn. cbn [bnodes]. rewrite (objects_by w w1 order I SB notu notu_face), objects_old, !filter_map_comm, !map_map.
  assert (E : filter (fun p => negb (mem (dn_name (snapshot_node (dheap w1) (old w1 p))) (dkeys [(v, d)]))) (filter (fun p => notu (old w p)) (dlook w)) =
              filter (fun p => negb (mem (dn_name (snapshot_node (dheap w) (old w p))) (dkeys [(v, d)]))) (filter (fun p => notu (old w p)) (dlook w))).
  { apply filter_ext_in. intros p Hp. apply filter_In in Hp as [Hp _]. destruct (same_entry w w1 order I SB p Hp) as (_ & _ & F & _).
    unfold face in F. injection F as F1 F2 F3. cbn [snapshot_node dn_name]. rewrite F2. reflexivity. }
  rewrite E. apply qprod_map_ext. intros p Hp. apply filter_In in Hp as [Hp _]. apply ready_entry; assumption.
Qed.

Lemma prepared_value v d : plan_value w1 [(v, d)] = stance_value w order fixed v d.
Proof.
  unfold plan_value, stance_value. rewrite !prepared_sum. f_equal. unfold stance_sum. apply qsum_map_ext. intros s _.
  rewrite (utilities_same w w1 order I I1 SB ready_kinds s). reflexivity.
Qed.
End Ready.

Lemma decidable_node w fixed v : dinv w -> decidable w fixed v ->
  exists i n, dholds w v i n /\ nkind n = KDecision /\ nporder n = [] /\ (forall d, dget v fixed = Some d -> In d (nvalues n)).
Proof.
  intros I (m & Hm & E & P & D). apply (dobj_In w I) in Hm as (u & i & n & H & K & ->). cbn [snapshot_node dn_name] in E. rewrite (dnamed w I u i n H) in E. subst u.
  exists i, n. split; [exact H|]. split; [unfold is_decision in K; destruct (nkind n); try discriminate K; reflexivity|]. split; [|exact D].
  rewrite (dshown w I _ _ _ H) in P. destruct (nporder n); [reflexivity|discriminate P].
Qed.

Definition rest_tables (w : dworld) (order : list string) : list dnode := filter (fun n => negb (mem (dn_name n) order)) (bnodes (dbn w)).

Theorem optimal_stance {SO : SetOrder} {BO : BagOrder} w order fixed : dinv w -> dtidy w -> NoDup order -> (forall v, In v order -> decidable w fixed v) ->
  nonneg_tables (rest_tables w order) ->
  (forall v d, In v order -> In d (values_of (dbn w) v) -> stance_sum w order fixed v d (fun _ => 1%Qc) <> 0%Qc) ->
  exists sol, snd (optimal_decisions w order fixed) = Ok sol /\ (forall v, In v (dkeys sol) <-> In v order) /\
    forall v, In v order -> exists d, dget v sol = Some d /\ first_best (stance_value w order fixed v) (values_of (dbn w) v) d.
Proof.
  intros I T ND DC NN NZ.
  assert (Q : forall v, In v order -> optimisable w fixed v).
  { intros v Hv. destruct (decidable_node w fixed v I (DC v Hv)) as (i & n & H & K & _ & D). exists i, n. auto. }
  destruct (prepare_ok fixed order w I T ND Q) as (w1 & E & I1 & L1 & R1). assert (SB := ready_same w w1 fixed order L1 R1).
  destruct (optimal_local w order fixed w1 I T ND Q) as (sol & Es & Ks & As).
  - intros v i n Hv H. destruct (decidable_node w fixed v I (DC v Hv)) as (j & m & Hm & _ & P & _). assert (m = n) by (destruct Hm, H; congruence). congruence.
  - rewrite E. reflexivity.
  - apply (prepared_nonneg w w1 order I I1 SB).
    + intros v i n' Hv H'. destruct (Q v Hv) as (j & n & H & K & _). destruct (R1 v j n H) as (m & Hm & _ & RB).
      assert (m = n') by (assert (A := proj1 Hm); assert (B := proj1 H'); destruct Hm, H'; congruence). subst m. specialize (RB Hv).
      destruct (dget v fixed) as [d|]; [|apply (mixed_nonneg _ _ RB)].
      apply (decided_nonneg (dheap w) n n' d (di_ok w I j n (proj2 H)) K); [apply (T v j n H); congruence|exact RB].
    + intros n Hn N. apply NN. unfold rest_tables. apply filter_In. split; [exact Hn|]. apply negb_true_iff, mem_nIn, N.
  - intros v i n d Hv H Id. rewrite (prepared_sum w w1 fixed order I I1 T L1 R1 Q). apply NZ; [exact Hv|].
    assert (K := ready_kinds w fixed order Q v i n Hv H). rewrite (dbn_values w I T v i n H (or_intror K)). exact Id.
  - exists sol. rewrite Es. split; [reflexivity|]. split; [exact Ks|]. intros v Hv. destruct (Q v Hv) as (i & n & H & K & _).
    destruct (As v i n Hv H) as (d & D & FB). exists d. split; [exact D|]. rewrite (dbn_values w I T v i n H (or_intror K)).
    destruct FB as (pre & post & X1 & X2 & X3). exists pre, post. split; [exact X1|].
    split; intros x Hx; rewrite <- !(prepared_value w w1 fixed order I I1 T L1 R1 Q); auto.
Qed.

(** Units. *)
Section Units.
Variables (a c : Qc) (w w' : dworld).
Hypothesis I : dinv w.
Hypothesis I' : dinv w'.
Hypothesis T : dtidy w.
Hypothesis X : revalued a c w w'.

Lemma rv_vars : bvars (dbn w') = bvars (dbn w). Proof. unfold bvars. rewrite (rv_nodes _ _ _ _ X). reflexivity. Qed.
Lemma rv_open ds : open_nodes w' ds = open_nodes w ds. Proof. unfold open_nodes. rewrite (rv_nodes _ _ _ _ X). reflexivity. Qed.
Lemma rv_values v : values_of (dbn w') v = values_of (dbn w) v. Proof. unfold values_of. rewrite (rv_nodes _ _ _ _ X). reflexivity. Qed.

Lemma rv_tidy : dtidy w'.
Proof.
  intros v i n H K. assert (N : In (snapshot_node (dheap w') n) (bnodes (dbn w'))).
  { apply (dobj_In w' I'). exists v, i, n. split; [exact H|]. split; [|reflexivity]. unfold is_utility. destruct (nkind n); try reflexivity. contradiction. }
  rewrite (rv_nodes _ _ _ _ X) in N. apply (dobj_In w I) in N as (u & j & m & Hm & Um & E).
  assert (EV : nvalues n = nvalues m) by (apply (f_equal dn_values) in E; exact E). rewrite EV. apply (T u j m Hm).
  intros Z. unfold is_utility in Um. rewrite Z in Um. discriminate.
Qed.

Lemma rv_legal ds : legal_decisions w ds -> legal_decisions w' ds.
Proof.
  intros [ND L]. split; [exact ND|]. intros v d Hd. destruct (L v d Hd) as (i & n & H & K & Id).
  assert (N : In (snapshot_node (dheap w) n) (drules w)).
  { apply (dobj_In w I). exists v, i, n. split; [exact H|]. split; [unfold is_decision; rewrite K; reflexivity|reflexivity]. }
  rewrite <- (rv_rules _ _ _ _ X) in N. apply (dobj_In w' I') in N as (u & j & m & Hm & Um & E).
  assert (EV : nvalues n = nvalues m) by (apply (f_equal dn_values) in E; exact E).
  assert (EN : nname n = nname m) by (apply (f_equal dn_name) in E; exact E). rewrite (dnamed w I v i n H), (dnamed w' I' u j m Hm) in EN. subst u.
  exists j, m. split; [exact Hm|]. split; [unfold is_decision in Um; destruct (nkind m); try discriminate Um; reflexivity|]. rewrite <- EV. exact Id.
Qed.

Lemma sum_affine (g : dict string -> Qc) (l : list (dict string)) : (forall s, In s l -> In s (states (bvars (dbn w)))) ->
  qsum (map (fun s => g s * utilities w' s)%Qc l) = (a * qsum (map (fun s => g s * utilities w s)%Qc l) + c * qsum (map (fun s => g s * 1)%Qc l))%Qc.
Proof.
  induction l as [|s l IH]; intros H; cbn [map qsum]; [ring|]. rewrite (rv_utilities _ _ _ _ X s (H s (or_introl eq_refl))).
  rewrite IH by (intros t Ht; apply H; right; exact Ht). ring.
Qed.

Lemma divide_affine x m : m <> 0%Qc -> ((a * x + c * m) / m = a * (x / m) + c)%Qc.
Proof. intros N. field. exact N. Qed.

Lemma rv_plan ds : plan_sum w ds (fun _ => 1%Qc) <> 0%Qc -> plan_value w' ds = (a * plan_value w ds + c)%Qc.
Proof.
  intros NZ. unfold plan_value. assert (E1 : plan_sum w' ds (fun _ => 1%Qc) = plan_sum w ds (fun _ => 1%Qc)) by (unfold plan_sum; rewrite rv_open, rv_vars; reflexivity).
  rewrite E1, <- divide_affine by exact NZ. f_equal. unfold plan_sum at 1 2 3. rewrite rv_open, rv_vars.
  apply (sum_affine (fun s => qprod (map (fun n => entry n s) (open_nodes w ds)))). intros s Hs. apply filter_In in Hs. apply Hs.
Qed.

Lemma rv_stance order fixed v d : stance_sum w order fixed v d (fun _ => 1%Qc) <> 0%Qc ->
  stance_sum w' order fixed v d (fun _ => 1%Qc) = stance_sum w order fixed v d (fun _ => 1%Qc) /\
  stance_value w' order fixed v d = (a * stance_value w order fixed v d + c)%Qc.
Proof.
  intros NZ. assert (E1 : stance_sum w' order fixed v d (fun _ => 1%Qc) = stance_sum w order fixed v d (fun _ => 1%Qc)) by (unfold stance_sum; rewrite rv_open, rv_vars; reflexivity).
  split; [exact E1|]. unfold stance_value. rewrite E1, <- divide_affine by exact NZ. f_equal. unfold stance_sum at 1 2 3. rewrite rv_open, rv_vars.
  apply (sum_affine (fun s => qprod (map (fun n => stance order fixed n s) (open_nodes w [(v, d)])))). intros s Hs. apply filter_In in Hs. apply Hs.
Qed.

Theorem units_expected {SO : SetOrder} {BO : BagOrder} ds : dlook w <> [] -> dlook w' <> [] ->
  legal_decisions w ds -> nonneg_tables (open_nodes w ds) -> plan_sum w ds (fun _ => 1%Qc) <> 0%Qc ->
  exists x, snd (expected_utility w ds) = Ok (scalar x) /\ snd (expected_utility w' ds) = Ok (scalar (a * x + c)%Qc).
Proof.
  intros NE NE' L NN NZ. destruct (expected_utility_ok w ds I T NE L NN NZ) as (w1 & E & _).
  destruct (expected_utility_ok w' ds I' rv_tidy NE' (rv_legal ds L)) as (w2 & E2 & _).
  - rewrite rv_open. exact NN.
  - unfold plan_sum. rewrite rv_open, rv_vars. exact NZ.
  - exists (plan_value w ds). rewrite E, E2. cbn [snd]. split; [reflexivity|]. rewrite (rv_plan ds NZ). reflexivity.
Qed.

Lemma first_best_affine val val' l d : (0 < a)%Qc -> (forall x, In x l -> val' x = (a * val x + c)%Qc) -> first_best val l d -> first_best val' l d.
Proof.
  intros P V (pre & post & E & A & B). assert (Il : forall x, In x pre -> In x l) by (intros x Hx; rewrite E; apply in_or_app; left; exact Hx).
  assert (Id : In d l) by (rewrite E; apply in_or_app; right; left; reflexivity).
  exists pre, post. split; [exact E|]. split.
  - intros x Hx. rewrite (V x (Il x Hx)), (V d Id). rewrite (Qcplus_comm (a * val x)), (Qcplus_comm (a * val d)).
    apply Qclt_minus_iff. replace (c + a * val d + - (c + a * val x))%Qc with (a * (val d + - val x))%Qc by ring.
    specialize (A x Hx). apply Qclt_minus_iff in A. rewrite <- (Qcmult_0_l (val d + - val x)). apply Qcmult_lt_compat_r; assumption.
  - intros x Hx. rewrite (V x Hx), (V d Id). apply Qcplus_le_compat; [|apply Qcle_refl]. rewrite (Qcmult_comm a (val x)), (Qcmult_comm a (val d)).
    apply Qcmult_le_compat_r; [apply B, Hx|apply Qclt_le_weak, P].
Qed.

Lemma rv_decidable fixed v : decidable w fixed v -> decidable w' fixed v.
Proof. intros (n & Hn & R). exists n. rewrite (rv_rules _ _ _ _ X). split; assumption. Qed.

Theorem units_optimal {SO : SetOrder} {BO : BagOrder} order fixed : (0 < a)%Qc -> NoDup order -> (forall v, In v order -> decidable w fixed v) ->
  nonneg_tables (rest_tables w order) ->
  (forall v d, In v order -> In d (values_of (dbn w) v) -> stance_sum w order fixed v d (fun _ => 1%Qc) <> 0%Qc) ->
  exists sol sol', snd (optimal_decisions w order fixed) = Ok sol /\ snd (optimal_decisions w' order fixed) = Ok sol' /\
    (forall v, In v (dkeys sol) <-> In v order) /\ forall v, dget v sol' = dget v sol.
Proof.
  intros P ND DC NN NZ. destruct (optimal_stance w order fixed I T ND DC NN NZ) as (sol & E & K & B).
  destruct (optimal_stance w' order fixed I' rv_tidy ND) as (sol' & E' & K' & B').
  - intros v Hv. apply rv_decidable, DC, Hv.
  - unfold rest_tables. rewrite (rv_nodes _ _ _ _ X). exact NN.
  - intros v d Hv Hd. rewrite rv_values in Hd. rewrite (proj1 (rv_stance order fixed v d (NZ v d Hv Hd))). apply NZ; assumption.
  - exists sol, sol'. split; [exact E|]. split; [exact E'|]. split; [exact K|]. intros v. destruct (In_dec_s v order) as [Hv|Hv].
    + destruct (B v Hv) as (d & D & FB). destruct (B' v Hv) as (d' & D' & FB'). rewrite D, D'. f_equal. rewrite rv_values in FB'.
      apply (first_best_unique (stance_value w' order fixed v) (values_of (dbn w) v)); [exact FB'|].
      apply (first_best_affine (stance_value w order fixed v)); [exact P| |exact FB]. intros x Hx. apply (rv_stance order fixed v x), NZ; assumption.
    + assert (N : forall s : dict string, (forall v, In v (dkeys s) <-> In v order) -> dget v s = None) by (intros s Ks; apply dget_None; rewrite Ks; exact Hv).
      rewrite (N sol K), (N sol' K'). reflexivity.
Qed.
End Units.

(** The mean lies between the least and the greatest utility. *)
Lemma sum_between {A} (g u : A -> Qc) l lo hi : (forall s, In s l -> (0 <= g s)%Qc) -> (forall s, In s l -> (lo <= u s)%Qc /\ (u s <= hi)%Qc) ->
  (lo * qsum (map (fun s => g s * 1) l) <= qsum (map (fun s => g s * u s) l))%Qc /\ (qsum (map (fun s => g s * u s) l) <= hi * qsum (map (fun s => g s * 1) l))%Qc.
Proof.
  induction l as [|s l IH]; intros G U; cbn [map qsum]; [rewrite !Qcmult_0_r; split; apply Qcle_refl|].
  destruct IH as [IL IH]; [intros t Ht; apply G; right; exact Ht|intros t Ht; apply U; right; exact Ht|]. destruct (U s (or_introl eq_refl)) as [UL UH].
  assert (P := G s (or_introl eq_refl)). rewrite !(Qcmult_plus_distr_r). split; apply Qcplus_le_compat; try assumption.
  - replace (lo * (g s * 1))%Qc with (lo * g s)%Qc by ring. rewrite (Qcmult_comm (g s)). apply Qcmult_le_compat_r; assumption.
  - replace (hi * (g s * 1))%Qc with (hi * g s)%Qc by ring. rewrite (Qcmult_comm (g s)). apply Qcmult_le_compat_r; assumption.
Qed.

Lemma table_entry (l : list dnode) n s : nonneg_tables l -> In n l -> (0 <= entry n s)%Qc.
Proof. intros NN Hn. apply (DynPure.entry_nonneg (mkBN l [] []) n s); [exact NN|exact Hn]. Qed.

Lemma plan_between w ds lo hi : nonneg_tables (open_nodes w ds) -> plan_sum w ds (fun _ => 1%Qc) <> 0%Qc ->
  (forall s, In s (states (bvars (dbn w))) -> agrees ds s = true -> (lo <= utilities w s)%Qc /\ (utilities w s <= hi)%Qc) ->
  (lo <= plan_value w ds)%Qc /\ (plan_value w ds <= hi)%Qc.
Proof.
  intros NN NZ B. set (l := filter (agrees ds) (states (bvars (dbn w)))). set (g := fun s => qprod (map (fun n => entry n s) (open_nodes w ds))).
  assert (G : forall s, In s l -> (0 <= g s)%Qc).
  { intros s _. apply qprod_nonneg, Forall_forall. intros x Hx. apply in_map_iff in Hx as (n & <- & Hn). apply (table_entry (open_nodes w ds)); assumption. }
  destruct (sum_between g (utilities w) l lo hi G) as [A C].
  { intros s Hs. apply filter_In in Hs as [Hs E]. apply B; assumption. }
  change (qsum (map (fun s => g s * 1)%Qc l)) with (plan_sum w ds (fun _ => 1%Qc)) in A, C.
  change (qsum (map (fun s => g s * utilities w s)%Qc l)) with (plan_sum w ds (utilities w)) in A, C.
  assert (M : (0 < plan_sum w ds (fun _ => 1%Qc))%Qc).
  { assert (M0 : (0 <= plan_sum w ds (fun _ => 1%Qc))%Qc).
    { unfold plan_sum. fold l. clear - G. induction l as [|s l IH]; cbn [map qsum]; [apply Qcle_refl|].
      rewrite <- (Qcplus_0_l 0). apply Qcplus_le_compat; [rewrite Qcmult_1_r; apply (G s); left; reflexivity|apply IH; intros t Ht; apply G; right; exact Ht]. }
    destruct (Qcle_lt_or_eq _ _ M0) as [|E]; [assumption|]. symmetry in E. contradiction. }
  unfold plan_value. set (m := plan_sum w ds (fun _ => 1%Qc)) in *. split.
  - apply (Qcmult_lt_0_le_reg_r _ _ m M). unfold Qcdiv. rewrite <- Qcmult_assoc, (Qcmult_comm (/ m)), Qcmult_inv_r, Qcmult_1_r by exact NZ. exact A.
  - apply (Qcmult_lt_0_le_reg_r _ _ m M). unfold Qcdiv. rewrite <- Qcmult_assoc, (Qcmult_comm (/ m)), Qcmult_inv_r, Qcmult_1_r by exact NZ. exact C.
Qed.

Lemma qprod_one_out {A} (name : A -> string) (f : A -> Qc) l m : NoDup (map name l) -> In m l ->
  qprod (map f l) = (f m * qprod (map f (filter (fun n => negb (mem (name n) [name m])) l)))%Qc.
Proof.
  induction l as [|x l IH]; intros ND H; [destruct H|]. cbn [map] in ND. inversion ND as [|? ? N ND']; subst.
  cbn [map filter qprod]. destruct H as [->|H].
  - assert (M : mem (name m) [name m] = true) by (apply mem_In; left; reflexivity). rewrite M. cbn [negb]. f_equal. f_equal. f_equal. symmetry.
    rewrite (filter_ext_in _ (fun _ => true)); [clear; induction l as [|y l IH]; cbn; [reflexivity|rewrite IH; reflexivity]|].
    intros y Hy. apply negb_true_iff, mem_nIn. intros [E|[]]. apply N. rewrite E. apply in_map, Hy.
  - assert (NE : negb (mem (name x) [name m]) = true) by (apply negb_true_iff, mem_nIn; intros [E|[]]; apply N; rewrite <- E; apply in_map, H).
    rewrite NE. cbn [map qprod]. rewrite (IH ND' H). ring.
Qed.

Lemma rule_split w v i n U : dinv w -> dtidy w -> dholds w v i n -> nkind n = KDecision -> nporder n = [] ->
  plan_sum w [] U = qsum (map (fun d => entry (snapshot_node (dheap w) n) [(v, d)] * plan_sum w [(v, d)] U)%Qc (nvalues n)).
Proof.
  intros I T H K P. set (m := snapshot_node (dheap w) n).
  assert (Hm : In m (bnodes (dbn w))) by (apply (dobj_In w I); exists v, i, n; split; [exact H|]; split; [unfold is_utility; rewrite K; reflexivity|reflexivity]).
  assert (Nm : dn_name m = v) by (exact (dnamed w I v i n H)).
  assert (EM : forall s, entry m s = entry m [(v, look s v)]).
  { intros s. unfold entry. assert (dn_parents m = []) as -> by (unfold m; rewrite (dshown w I _ _ _ H), P; reflexivity). rewrite Nm. cbn [map fst snd].
    unfold look at 2. cbn [dget]. rewrite String.eqb_refl. reflexivity. }
  assert (PR : forall s, qprod (map (fun n => entry n s) (open_nodes w [])) = (entry m s * qprod (map (fun n => entry n s) (open_nodes w [(v, look s v)])))%Qc).
  { intros s. rewrite open_all. rewrite (qprod_one_out dn_name _ _ m (wb_names _ (dbn_wf w I T)) Hm), Nm. reflexivity. }
  transitivity (qsum (map (fun s => qsum (map (fun d => if String.eqb (look s v) d then (entry m [(v, d)] * (qprod (map (fun n => entry n s) (open_nodes w [(v, d)])) * U s))%Qc else 0%Qc) (nvalues n)))
    (states (bvars (dbn w))))).
  - unfold plan_sum. rewrite agrees_all. apply qsum_map_ext. intros s Hs. rewrite (PR s), (EM s).
    assert (SL := states_legal (bvars (dbn w))). rewrite bnames_bvars in SL. specialize (SL (wb_names _ (dbn_wf w I T)) s Hs).
    assert (Iv : In (look s v) (nvalues n)).
    { apply (SL v). rewrite <- (dbn_values w I T _ _ _ H (or_intror K)). apply (bvars_in (dbn w) (dbn_wf w I T)), (dbn_name w I _ _ _ H (or_intror K)). }
    assert (ND : NoDup (nvalues n)) by (apply (T v i n H); congruence).
    clear - Iv ND. induction (nvalues n) as [|d l IH]; [destruct Iv|]. cbn [map qsum]. inversion ND as [|? ? N ND']; subst. destruct (String.eqb_spec (look s v) d) as [E|NE].
    + rewrite qsum_zero; [rewrite E; ring|]. intros e He. destruct (String.eqb_spec (look s v) e) as [E2|_]; [|reflexivity]. exfalso. apply N. rewrite <- E, E2. exact He.
    + destruct Iv as [E|Iv]; [congruence|]. rewrite <- (IH Iv ND'). ring.
  - rewrite qsum_swap. apply qsum_map_ext. intros d Hd. unfold plan_sum. rewrite qsum_filter, <- qsum_mult_l. apply qsum_map_ext. intros s Hs.
    unfold agrees. cbn [forallb]. rewrite andb_true_r. cbn [fst snd]. destruct (String.eqb (look s v) d); [reflexivity|ring].
Qed.

Theorem no_mixture {SO : SetOrder} {BO : BagOrder} w v fixed order : dinv w -> dtidy w -> decidable w fixed v ->
  nonneg_bn (dbn w) -> stochastic_tables (bnodes (dbn w)) -> topological (dbn w) order ->
  exists d x y, snd (optimal_decisions w [v] fixed) = Ok [(v, d)] /\ snd (expected_utility w []) = Ok (scalar x) /\
    snd (expected_utility w [(v, d)]) = Ok (scalar y) /\ (x <= y)%Qc.
Proof.
  intros I T DC NN ST TO. destruct (decidable_node w fixed v I DC) as (i & n & H & K & P & FX).
  assert (SUB : forall ds m, In m (open_nodes w ds) -> In m (bnodes (dbn w))) by (intros ds m Hm; apply filter_In in Hm; apply Hm).
  assert (NN' : forall ds, nonneg_tables (open_nodes w ds)) by (intros ds m Hm; apply NN, (SUB ds m Hm)).
  assert (ST' : forall ds, stochastic_tables (open_nodes w ds)) by (intros ds m s Hm; apply ST, (SUB ds m Hm)).
  destruct (optimal_single w v i n fixed order I T H K P FX (NN' _) (ST' _) TO) as (w1 & d & E & FB).
  assert (NE : dlook w <> []) by (intros Z; destruct H as [D _]; rewrite Z in D; discriminate D).
  assert (LG : forall x, In x (nvalues n) -> legal_decisions w [(v, x)]).
  { intros x Hx. split; [constructor; [intros []|constructor]|]. intros u y [Y|[]]. injection Y as <- <-. exists i, n. auto. }
  assert (L0 : legal_decisions w []) by (split; [constructor|intros u y []]).
  assert (O : forall ds, legal_decisions w ds -> plan_sum w ds (fun _ => 1%Qc) = 1%Qc) by (intros ds L; apply (plan_one w ds order I T L (ST' ds) TO)).
  destruct FB as (pre & post & EL & _ & MX). assert (Hd : In d (nvalues n)) by (rewrite EL; apply in_or_app; right; left; reflexivity).
  destruct (expected_utility_ok w [] I T NE L0 (NN' _)) as (w2 & E2 & _); [rewrite (O _ L0); discriminate|].
  destruct (expected_utility_ok w [(v, d)] I T NE (LG d Hd) (NN' _)) as (w3 & E3 & _); [rewrite (O _ (LG d Hd)); discriminate|].
  exists d, (plan_value w []), (plan_value w [(v, d)]). rewrite E, E2, E3. split; [reflexivity|]. split; [reflexivity|]. split; [reflexivity|].
  assert (V : forall ds, legal_decisions w ds -> plan_value w ds = plan_sum w ds (utilities w)).
  { intros ds L. unfold plan_value. rewrite (O ds L). unfold Qcdiv. replace (/ 1)%Qc with 1%Qc by (apply Qc_is_canon; reflexivity). ring. }
  rewrite (V [] L0). rewrite (rule_split w v i n (utilities w) I T H K P).
  set (m := snapshot_node (dheap w) n).
  assert (Hm : In m (bnodes (dbn w))) by (apply (dobj_In w I); exists v, i, n; split; [exact H|]; split; [unfold is_utility; rewrite K; reflexivity|reflexivity]).
  assert (S1 : qsum (map (fun x => entry m [(v, x)]) (nvalues n)) = 1%Qc).
  { rewrite <- (ST m [] Hm). assert (Nm : dn_name m = v) by (exact (dnamed w I v i n H)). rewrite Nm. reflexivity. }
  assert (G : forall l, incl l (nvalues n) -> (qsum (map (fun x => entry m [(v, x)] * plan_sum w [(v, x)] (utilities w)) l) <= qsum (map (fun x => entry m [(v, x)]) l) * plan_value w [(v, d)])%Qc).
  { induction l as [|x l IH]; intros IN; cbn [map qsum]; [rewrite Qcmult_0_l; apply Qcle_refl|]. rewrite Qcmult_plus_distr_l. apply Qcplus_le_compat; [|apply IH; intros y Hy; apply IN; right; exact Hy].
    rewrite <- (V _ (LG x (IN x (or_introl eq_refl)))), !(Qcmult_comm (entry m _)). apply Qcmult_le_compat_r; [apply MX, IN; left; reflexivity|].
    apply (table_entry (bnodes (dbn w))); assumption. }
  specialize (G (nvalues n) (incl_refl _)). rewrite S1, Qcmult_1_l in G. exact G.
Qed.
