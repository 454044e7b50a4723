(** How rounding errors in the tables handed over carry over to the next slice. *)
From Coq Require Import Field.
From Verif Require Import Base BaseFacts NDArray NDArrayFacts Factor Exact Spec SpecFacts SumCalc FactorFacts Order OrderSpec JoinTree TreeSpec DecFacts MCProof DynSpec DynPure Rounded RoundedSpec RoundedProof RoundedTables RoundedTop
  Node Network Dynamic RoundedTree RoundedTreeSpec RoundedDyn RoundedDynSpec.

Section Scaled.
Context {RD : Rounding}.

(** The masses of two networks, up to a factor that the posteriors do not depend on. *)
Definition mass_near (k : nat) (b b' : bn) (ev : evidence) : Prop :=
  exists c, (0 < c)%Qc /\ forall q, close k (c * mass b ev q)%Qc (mass b' ev q).

Lemma close_zero k x y : close k x y -> (x = 0%Qc <-> y = 0%Qc).
Proof.
  intros C. assert (P := close_pos _ _ _ C). destruct C as (A & B & _). split; intros Z; rewrite Z in P.
  - destruct (Qc_dec y 0) as [[D|D]|D]; [destruct (Qclt_not_le _ _ D B)|apply P in D; destruct (Qc_lt_irrefl _ D)|exact D].
  - destruct (Qc_dec x 0) as [[D|D]|D]; [destruct (Qclt_not_le _ _ D A)|apply P in D; destruct (Qc_lt_irrefl _ D)|exact D].
Qed.
Lemma pos_neq (x : Qc) : (0 < x)%Qc -> x <> 0%Qc.
Proof. intros H E. rewrite E in H. exact (Qc_lt_irrefl _ H). Qed.
Lemma pos_mul (x y : Qc) : (0 < x)%Qc -> (0 < y)%Qc -> (0 < x * y)%Qc.
Proof. intros A B. apply Qc_nonneg_neq0_pos; [apply Qcmult_nonneg; apply Qclt_le_weak; assumption|]. intros E. apply Qcmult_integral in E as [E|E]; [exact (pos_neq _ A E)|exact (pos_neq _ B E)]. Qed.
Lemma pos_inv (x : Qc) : (0 < x)%Qc -> (0 < / x)%Qc.
Proof.
  intros A. apply Qc_nonneg_neq0_pos.
  - replace (/ x)%Qc with (1 / x)%Qc by (unfold Qcdiv; ring). apply Qcdiv_nonneg; [discriminate|exact A].
  - intros E. assert (X := Qcmult_inv_r x (pos_neq _ A)). rewrite E in X. rewrite Qcmult_0_r in X. discriminate X.
Qed.

Lemma mass_near_zero k b b' ev : mass_near k b b' ev -> (mass b ev [] = 0%Qc <-> mass b' ev [] = 0%Qc).
Proof.
  intros (c & P & C). rewrite <- (close_zero _ _ _ (C [])). split; [intros ->; ring|]. intros E. apply Qcmult_integral in E as [E|E]; [destruct (pos_neq _ P E)|exact E].
Qed.

(** The posteriors, up to a factor, and exactly. *)
Lemma posterior_scaled k b b' ev : mass_near k b b' ev -> (0 <= mass b' ev [])%Qc -> exists c, (0 < c)%Qc /\ forall q, close k (c * posterior b ev q)%Qc (posterior b' ev q).
Proof.
  intros M N. assert (Z := mass_near_zero _ _ _ _ M). destruct M as (c & P & C). destruct (Qc_eq_dec (mass b ev []) 0) as [E|E].
  - exists 1%Qc. split; [reflexivity|]. intros q. unfold posterior. rewrite (proj1 Z E), E. cbn. rewrite Qcmult_1_l. apply close_refl, Qcle_refl.
  - assert (E' : mass b' ev [] <> 0%Qc) by tauto. assert (P' : (0 < mass b' ev [])%Qc) by (apply Qc_nonneg_neq0_pos; assumption).
    assert (PZ : (0 < c * mass b ev [])%Qc) by (apply (close_pos _ _ _ (C [])), P').
    exists (c * mass b ev [] * / mass b' ev [])%Qc. split; [apply pos_mul; [exact PZ|apply pos_inv, P']|]. intros q. unfold posterior.
    rewrite (proj2 (qeqb_false _ _) E), (proj2 (qeqb_false _ _) E').
    replace (c * mass b ev [] * / mass b' ev [] * (mass b ev q / mass b ev []))%Qc with (c * mass b ev q * / mass b' ev [])%Qc by (field; auto).
    unfold Qcdiv. rewrite <- (Nat.add_0_r k). apply close_mul; [apply C|]. apply close_refl, Qclt_le_weak, pos_inv, P'.
Qed.

Lemma posterior_close k b b' ev q : mass_near k b b' ev -> close (2 * k) (posterior b ev q) (posterior b' ev q).
Proof.
  intros M. assert (Z := mass_near_zero _ _ _ _ M). destruct M as (c & P & C). unfold posterior. destruct (Qc_eq_dec (mass b ev []) 0) as [E|E].
  - rewrite (proj1 Z E), E. apply close_refl, Qcle_refl.
  - assert (E' : mass b' ev [] <> 0%Qc) by tauto. rewrite (proj2 (qeqb_false _ _) E), (proj2 (qeqb_false _ _) E').
    assert (PZ : (0 < c * mass b ev [])%Qc). { apply Qc_nonneg_neq0_pos; [apply (C [])|]. intros X. apply Qcmult_integral in X as [X|X]; [exact (pos_neq _ P X)|exact (E X)]. }
    replace (mass b ev q / mass b ev [])%Qc with (c * mass b ev q * / (c * mass b ev []))%Qc by (field; split; [exact E|apply pos_neq, P]).
    replace (2 * k) with (k + k) by lia. unfold Qcdiv. apply close_mul; [apply C|]. apply close_inv; [apply C|exact PZ].
Qed.

Lemma qsum_scale c l : (c * qsum l)%Qc = qsum (map (Qcmult c) l).
Proof. induction l as [|x l IH]; cbn [qsum map]; [ring|]. rewrite <- IH. ring. Qed.

Variables b0 two : bn.
Variable trans : list (string * string).
Hypothesis WI : wired b0 two trans.
Hypothesis W2 : wf_bn two.
Hypothesis N2 : nonneg_bn two.

(** The 2-TBN with other tables for the variables taken over. *)
Definition with_tables (T : string * string -> ndarray) : bn := fed two (map (fun vp => (fst vp, T vp)) trans).

Lemma dget_with (T : string * string -> ndarray) vp : In vp trans -> dget (fst vp) (map (fun vp => (fst vp, T vp)) trans) = Some (T vp).
Proof.
  intros I. apply In_dget; [unfold dkeys; rewrite map_map; apply WI|]. apply in_map_iff. exists vp. auto.
Qed.
Lemma dget_with_inv (T : string * string -> ndarray) v a : dget v (map (fun vp => (fst vp, T vp)) trans) = Some a -> exists vp, In vp trans /\ v = fst vp /\ a = T vp.
Proof. intros H. apply dget_In, in_map_iff in H as (vp & E & I). injection E as <- <-. eauto. Qed.
Lemma dget_with_none (T : string * string -> ndarray) v : ~ In v (map fst trans) -> dget v (map (fun vp => (fst vp, T vp)) trans) = None.
Proof. intros N. apply dget_None. unfold dkeys. rewrite map_map. exact N. Qed.

(** The number that the table of a variable taken over contributes. *)
Definition handed (T : string * string -> ndarray) (s : dict string) (vp : string * string) : Qc :=
  match find (fun n => String.eqb (fst vp) (dn_name n)) (bnodes two) with Some n => entry (with_table n (T vp)) s | None => 0%Qc end.

Lemma weight_with T ev s : weight (with_tables T) ev s = (step_weight two trans ev s * qprod (map (handed T s) trans))%Qc.
Proof.
  unfold weight, joint, step_weight, with_tables, fed. cbn [bnodes]. rewrite !map_map.
  rewrite (qprod_map_ext (fun x => evidence_weight ev (fed1 _ x) s) (fun n => evidence_weight ev n s)) by (intros n _; apply evw_fed).
  rewrite (qprod_split _ (fun n => mem (dn_name n) (map fst trans))).
  rewrite (qprod_map_ext _ (fun n => entry n s) (filter (fun x => negb (mem (dn_name x) (map fst trans))) (bnodes two))).
  2: { intros n Hn. apply filter_In in Hn as [_ N]. apply negb_true_iff, mem_nIn in N. unfold fed1. rewrite dget_with_none by exact N. reflexivity. }
  rewrite (qprod_map_ext _ (fun n => (fun v => match dget v trans with Some p => handed T s (v, p) | None => 0%Qc end) (dn_name n))).
  2: { intros n Hn. apply filter_In in Hn as [Hn M]. apply mem_In in M. destruct (dget_key _ trans M) as (p & D). rewrite D. apply dget_In in D.
       unfold handed. cbn [fst]. rewrite (find_node two W2 _ n Hn eq_refl). unfold fed1. rewrite (dget_with T (dn_name n, p) D : dget (dn_name n) _ = _). reflexivity. }
  rewrite (qprod_trans b0 two trans WI W2 (fun v => match dget v trans with Some p => handed T s (v, p) | None => 0%Qc end) (handed T s)).
  2: { intros v p I. rewrite (In_dget v p trans) by (try exact I; apply WI). reflexivity. }
  ring.
Qed.

(** Tables near each other, up to a factor for each. *)
Definition table_near (k : nat) (a a' : ndarray) : Prop :=
  shape a' = shape a /\ exists c, (0 < c)%Qc /\ Forall2 (close k) (map (Qcmult c) (data a)) (data a').

Lemma handed_near k T T' vp : table_near k (T vp) (T' vp) -> exists c, (0 < c)%Qc /\ forall s, close k (c * handed T s vp)%Qc (handed T' s vp).
Proof.
  intros (SH & c & P & F). exists c. split; [exact P|]. intros s. unfold handed. destruct (find _ _) as [n|]; [|rewrite Qcmult_0_r; apply close_refl, Qcle_refl].
  unfold entry. cbn [with_table dn_cpd dn_name dn_values dn_parents]. unfold aget. rewrite SH.
  match goal with |- close _ (_ * nth ?i _ _) _ => assert (X := forall2_nth _ _ _ F i); replace (nth i (map (Qcmult c) (data (T vp))) 0%Qc) with (c * nth i (data (T vp)) 0)%Qc in X; [exact X|] end.
  rewrite <- (Qcmult_0_r c) at 2. symmetry. apply map_nth.
Qed.

Lemma handed_all (err : string * string -> nat) T T' l : (forall vp, In vp l -> table_near (err vp) (T vp) (T' vp)) ->
  exists c, (0 < c)%Qc /\ forall s, close (sumn (map err l)) (c * qprod (map (handed T s) l))%Qc (qprod (map (handed T' s) l)).
Proof.
  induction l as [|vp l IH]; intros H; cbn [map sumn fold_right qprod].
  - exists 1%Qc. split; [reflexivity|]. intros s. rewrite Qcmult_1_l. apply close_refl. discriminate.
  - destruct (handed_near _ T T' vp (H vp (or_introl eq_refl))) as (c1 & P1 & C1). destruct IH as (c2 & P2 & C2); [intros x Hx; apply H; right; exact Hx|].
    exists (c1 * c2)%Qc. split; [apply pos_mul; assumption|]. intros s.
    replace (c1 * c2 * (handed T s vp * qprod (map (handed T s) l)))%Qc with (c1 * handed T s vp * (c2 * qprod (map (handed T s) l)))%Qc by ring.
    apply close_mul; [apply C1|apply C2].
Qed.

Lemma with_mass_near (err : string * string -> nat) T T' ev : (forall vp, In vp trans -> table_near (err vp) (T vp) (T' vp)) -> ev_ok two ev ->
  mass_near (sumn (map err trans)) (with_tables T) (with_tables T') ev.
Proof.
  intros H EV. destruct (handed_all err T T' trans H) as (c & P & C). exists c. split; [exact P|]. intros q. unfold mass, with_tables. rewrite !fed_bvars. fold (with_tables T) (with_tables T').
  rewrite qsum_scale, map_map. apply qsum_close. induction (filter (agrees q) (states (bvars two))) as [|s l IH]; cbn [map]; constructor; [|exact IH].
  rewrite !weight_with. replace (c * (step_weight two trans ev s * qprod (map (handed T s) trans)))%Qc with (step_weight two trans ev s * (c * qprod (map (handed T s) trans)))%Qc by ring.
  change (sumn (map err trans)) with (0 + sumn (map err trans)). apply close_mul; [|apply C]. apply close_refl, step_nonneg; assumption.
Qed.
End Scaled.
