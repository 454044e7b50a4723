(** SoftEvidenceExact in rounded arithmetic: what demands amount to. *)
From Coq Require Import Field.
From Verif Require Import Base BaseFacts NDArray NDArrayFacts SumCalc Factor FactorFacts Exact Spec SpecFacts VEProof VEProof2 MCSpec MCFacts MCProof DecFacts DecNorm Order OrderSpec JoinTree TreeSpec JTTop Node Network NetSpec NetView
  Dynamic DynSpec DynPure DynSoft Rounded RoundedSpec RoundedProof RoundedTables RoundedTree RoundedTreeSpec RoundedSoft RoundedSoftSpec RoundedSoftProof RoundedSoftTop RoundedDyn RoundedDynSpec RoundedDynPure RoundedSoftDyn RoundedSoftDynSpec.

Section Near.
Context {RD : Rounding}.

Lemma bigsum_close k n f g : (forall i, i < n -> close k (f i) (g i)) -> close k (bigsum n f) (bigsum n g).
Proof.
  intros H. unfold bigsum. apply qsum_close. assert (X : forall i, In i (seq 0 n) -> close k (f i) (g i)) by (intros i Hi; apply in_seq in Hi; apply H; lia).
  clear H. induction (seq 0 n) as [|i l IH]; cbn [map]; constructor; [apply X; left; reflexivity|]. apply IH. intros y Hy. apply X. right. exact Hy.
Qed.

Lemma sum_over_close card k l : forall f g a, (forall c, inrange card l c -> (forall u, ~ In u l -> c u = a u) -> close k (f c) (g c)) -> close k (sum_over card l f a) (sum_over card l g a).
Proof.
  induction l as [|v l IH]; intros f g a H; cbn [sum_over].
  - apply H; [intros u []|reflexivity].
  - apply bigsum_close. intros i Hi. apply IH. intros c R E. apply H.
    + intros u [<-|Hu]; [|apply R, Hu]. destruct (In_dec_s v l) as [X|X]; [apply R, X|]. rewrite (E v X), upd_eq. exact Hi.
    + intros u Hu. rewrite E by (intros X; apply Hu; right; exact X). apply upd_neq. intros ->. apply Hu. left; reflexivity.
Qed.

Lemma close_one k x : close k 1%Qc x -> forall y, (0 <= y)%Qc -> close k y (y * x)%Qc.
Proof. intros C y Hy. rewrite <- (Qcmult_1_r y) at 1. rewrite <- (Nat.add_0_l k). apply close_mul; [apply close_refl, Hy|exact C]. Qed.

Section Sums.
Variable b : bn.
Hypothesis WB : wf_bn b.
Hypothesis NN : nonneg_bn b.
Variable order : list string.
Hypothesis TO : topological b order.
Variable k : nat.
Hypothesis ST : nearly_stochastic k b.
Variable fixed : list string.
Notation card := (FactorFacts.card (values_of b)).
Notation free l := (filter (fun v => negb (mem v fixed)) l).

Lemma table_nonneg u a : (0 <= DecNorm.table b u a)%Qc.
Proof.
  unfold DecNorm.table. destruct (find _ _) as [n|] eqn:F; [|discriminate]. apply find_some in F as [H _]. unfold feval. apply nth_Forall_nonneg. exact (NN n H).
Qed.

Lemma prefix_near l : forall post a, order = l ++ post -> inrange card (bnames b) a -> close (k * length l) 1%Qc (sum_over card (free l) (run_prod b fixed l) a).
Proof.
  induction l as [|v l IH] using rev_ind; intros post a E R; [cbn; apply close_refl; discriminate|].
  rewrite <- app_assoc in E. cbn in E. rewrite app_length, Nat.mul_add_distr_l. cbn [length]. rewrite Nat.mul_1_r. unfold run_prod. rewrite !filter_app. cbn [filter]. destruct (mem v fixed) eqn:M; cbn [negb].
  - rewrite !app_nil_r. eapply close_mono; [|exact (IH _ a E R)]. lia.
  - rewrite sum_over_app. eapply close_trans; [exact (IH _ a E R)|]. apply sum_over_close. intros c Rc Ec. cbn [sum_over].
    assert (R' : inrange card (bnames b) c).
    { intros u Hu. destruct (In_dec_s u (free l)) as [X|X]; [apply Rc, X|rewrite (Ec u X); apply R, Hu]. }
    assert (NV : ~ In v l) by (assert (N := order_NoDup b WB order TO); rewrite E in N; apply NoDup_remove_2 in N; intros X; apply N, in_or_app; left; exact X).
    assert (Hv : In v (bnames b)) by (apply (order_In b order TO); rewrite E; apply in_or_app; right; left; reflexivity).
    apply (in_bnames b) in Hv as (n & Hn & Ev).
    replace (bigsum (card v) (fun i => qprod (map (fun u => DecNorm.table b u (upd c v i)) (free l ++ [v])))) with
      (run_prod b fixed l c * bigsum (card v) (fun i => feval (from_node n) (upd c v i)))%Qc.
    2: { rewrite <- bigsum_mult_l. apply bigsum_ext. intros i _. rewrite map_app, qprod_app. cbn [map qprod]. rewrite Qcmult_1_r. f_equal.
         - symmetry. apply (prod_deps b order TO fixed l _ E). intros u Hu. rewrite upd_neq; [reflexivity|]. intros ->. contradiction.
         - rewrite <- Ev. symmetry. apply (table_node b WB), Hn. }
    rewrite <- Ev, (column_state b WB n c Hn R'). apply close_one; [apply ST, Hn|]. unfold run_prod. apply qprod_nonneg, Forall_forall. intros x Hx. apply in_map_iff in Hx as (u & <- & _). apply table_nonneg.
Qed.

Lemma total_near a : inrange card (bnames b) a ->
  close (k * length (bnodes b)) 1%Qc (sum_over card (others b fixed) (fun c => qprod (map (fun n => feval (from_node n) c) (filter (fun n => negb (mem (dn_name n) fixed)) (bnodes b)))) a).
Proof.
  intros R. assert (P : Permutation (others b fixed) (free order)) by (apply perm_filter, TO).
  assert (X : forall c, qprod (map (fun n => feval (from_node n) c) (filter (fun n => negb (mem (dn_name n) fixed)) (bnodes b))) = run_prod b fixed order c).
  { intros c. unfold run_prod. rewrite <- (qprod_perm _ _ (Permutation_map (fun u => DecNorm.table b u c) P)). unfold others, bnames.
    rewrite filter_map_comm, map_map. apply qprod_map_ext. intros n Hn. apply filter_In in Hn as [Hn _]. symmetry. apply (table_node b WB), Hn. }
  assert (L : length (bnodes b) = length order) by (rewrite <- (Permutation_length (proj1 TO)); unfold bnames; rewrite map_length; reflexivity).
  rewrite (sum_over_ext card _ _ (run_prod b fixed order) a X), L. rewrite (sum_over_perm card (others b fixed) (free order)); [|eapply deps_ext, (prod_deps b order TO fixed order []); symmetry; apply app_nil_r|exact P].
  apply (prefix_near order [] a); [symmetry; apply app_nil_r|exact R].
Qed.
End Sums.

(** Nearly normalised tables: the own distributions are the tables. *)
Section Roots.
Variable b : bn.
Hypothesis WB : wf_bn b.
Hypothesis NN : nonneg_bn b.
Variable order : list string.
Hypothesis TO : topological b order.
Variable k : nat.
Hypothesis ST : nearly_stochastic k b.

Lemma total_mass_near : close (k * length (bnodes b)) 1%Qc (mass b [] []).
Proof.
  assert (X := total_near b WB NN order TO k ST [] (fun _ => 0) (fun v Hv => card_pos b WB v Hv)).
  rewrite (mass_total b WB [] (fun _ => 0) (ev_none b)). rewrite (others_nil b) in X. rewrite (sum_over_ext _ _ _ (fun c => qprod (map (fun n => feval (from_node n) c) (filter (fun n => negb (mem (dn_name n) [])) (bnodes b))))); [exact X|].
  intros a. rewrite iweight_none. f_equal. f_equal. clear X. induction (bnodes b) as [|n l IH]; [reflexivity|]. cbn. f_equal. exact IH.
Qed.

Lemma root_near n : In n (bnodes b) -> dn_parents n = [] ->
  exists c, (0 < c)%Qc /\ forall x, In x (dn_values n) -> close (k * length (bnodes b)) (c * entry n [(dn_name n, x)])%Qc (posterior b [] [(dn_name n, x)]).
Proof.
  intros Hn P. assert (Z : (0 < mass b [] [])%Qc) by (apply (close_pos _ _ _ total_mass_near); reflexivity).
  exists (/ mass b [] [])%Qc. split; [apply pos_inv, Z|]. intros x Hx. unfold posterior. rewrite (proj2 (qeqb_false _ _)) by (apply pos_neq, Z).
  rewrite (root_split b WB n x Hn P Hx). assert (X := total_near b WB NN order TO k ST [dn_name n] _ (origin_range b WB n x Hn Hx)).
  match type of X with close _ _ ?Y => set (y := Y) in * end.
  replace (entry n [(dn_name n, x)] * y / mass b [] [])%Qc with (/ mass b [] [] * entry n [(dn_name n, x)] * y)%Qc by (unfold Qcdiv; ring).
  apply close_one; [exact X|]. apply Qcmult_nonneg; [apply Qclt_le_weak, pos_inv, Z|]. unfold entry. apply nth_Forall_nonneg, NN, Hn.
Qed.
End Roots.

Lemma table_near_trans j k a a1 a2 : table_near j a a1 -> table_near k a1 a2 -> table_near (j + k) a a2.
Proof.
  intros (S1 & c1 & P1 & F1) (S2 & c2 & P2 & F2). split; [congruence|]. exists (c2 * c1)%Qc. split; [apply pos_mul; assumption|].
  clear S1 S2. revert F1 F2. generalize (data a) (data a1) (data a2). intros l. induction l as [|x l IH]; intros l1 l2 F1 F2; cbn [map] in *; inversion F1 as [|? y ? l1' C1 F1']; subst; cbn [map] in *; inversion F2 as [|? z ? l2' C2 F2']; subst; constructor.
  - eapply close_trans; [|exact C2]. replace (c2 * c1 * x)%Qc with (c2 * (c1 * x))%Qc by ring. rewrite <- (Nat.add_0_l j). apply close_mul; [apply close_refl, Qclt_le_weak, P2|exact C1].
  - exact (IH _ _ F1' F2').
Qed.

Section Bridge.
Variables b0 two : bn.
Variable trans : list (string * string).
Hypothesis WI : wired b0 two trans.
Hypothesis W2 : wf_bn two.
Hypothesis N2 : nonneg_bn two.
Variable j : nat.
Hypothesis OP : own_priors j two trans.

(** A root's table times the likelihoods. *)
Definition lifted (n : dnode) (l : list Qc) : ndarray :=
  mkArr [length (dn_values n)] (map (fun x => entry n [(dn_name n, x)] * nth (position x (dn_values n)) l 0)%Qc (dn_values n)).
Definition lifts (r : evidence) (vp : string * string) : ndarray :=
  match find (fun n => String.eqb (fst vp) (dn_name n)) (bnodes two), dget (fst vp) r with Some n, Some (Soft l) => lifted n l | _, _ => mkArr [] [] end.

Lemma lifted_entry n l s : dn_parents n = [] -> In (look s (dn_name n)) (dn_values n) ->
  entry (with_table n (lifted n l)) s = (entry n s * nth (position (look s (dn_name n)) (dn_values n)) l 0)%Qc.
Proof.
  intros P L. unfold entry at 1. cbn [with_table dn_cpd dn_name dn_values dn_parents]. rewrite P. cbn [map fst snd]. unfold aget, lifted. cbn [shape data ravel]. rewrite !position_idx.
  match goal with |- nth ?k _ _ = _ => replace k with (idx (look s (dn_name n)) (dn_values n)) by (cbn; ring) end.
  set (F := fun x => (entry n [(dn_name n, x)] * nth (position x (dn_values n)) l 0)%Qc). rewrite (nth_indep _ 0%Qc (F "")) by (rewrite map_length; apply idx_lt, L).
  rewrite (map_nth F), nth_idx by exact L. unfold F. rewrite position_idx. f_equal. unfold entry. rewrite P. cbn [map fst snd]. unfold look at 1. cbn [dget]. rewrite String.eqb_refl. reflexivity.
Qed.

(** Demands amount to tables of the variables taken over. *)
Lemma demands_weight T e r s : (forall v, In v (dkeys e) -> ~ In v (map fst trans)) ->
  meant two (map (fun vp => (fst vp, Soft (data (T vp)))) trans) r -> In s (states (bvars two)) ->
  weight two (e ++ r) s = weight (with_tables two trans (lifts r)) e s.
Proof.
  intros OFF M Hs. apply (meant_softs two (fun vp => data (T vp)) trans (wi_nodup _ _ _ WI)) in M as (Z & kap & K & H).
  unfold weight, joint, with_tables, fed. cbn [bnodes]. rewrite !map_map. rewrite <- !qprod_mult. apply qprod_map_ext. intros n Hn.
  rewrite evw_fed. destruct (mem (dn_name n) (map fst trans)) eqn:MT.
  - apply mem_In in MT. assert (MT' := MT). apply in_map_iff in MT' as ((v & p) & Ev & I). cbn in Ev.
    destruct (H v p I) as (lv & D & _). assert (NE : dget (dn_name n) e = None) by (apply dget_None; intros Y; exact (OFF _ Y MT)).
    assert (DW := dget_with b0 two trans WI (lifts r) (v, p) I). cbn [fst] in DW. rewrite Ev in DW, D. unfold fed1. rewrite DW.
    unfold lifts. cbn [fst]. rewrite (find_node two W2 _ n Hn eq_refl), D.
    assert (L : In (look s (dn_name n)) (dn_values n)).
    { apply (states_legal (bvars two)) with (s := s) (v := dn_name n); [rewrite bnames_bvars; apply W2|exact Hs|]. unfold bvars. apply in_map_iff. exists n. auto. }
    rewrite lifted_entry; [|exact (root_unique b0 two trans WI W2 v p n I Hn (eq_sym Ev))|exact L].
    unfold evidence_weight. rewrite NE, (dget_app_r e r _ NE), D. ring.
  - assert (MT' := MT). apply mem_nIn in MT'. unfold fed1. rewrite (dget_with_none trans) by exact MT'.
    assert (E : evidence_weight (e ++ r) n s = evidence_weight e n s).
    { unfold evidence_weight. destruct (dget (dn_name n) e) as [x|] eqn:D; [rewrite (dget_app_l e r _ x D); reflexivity|]. rewrite (dget_app_r e r _ D), (Z _ MT'). reflexivity. }
    rewrite E. ring.
Qed.

Lemma demands_mass T e r q : (forall v, In v (dkeys e) -> ~ In v (map fst trans)) ->
  meant two (map (fun vp => (fst vp, Soft (data (T vp)))) trans) r -> mass two (e ++ r) q = mass (with_tables two trans (lifts r)) e q.
Proof.
  intros OFF M. unfold mass, with_tables. rewrite fed_bvars. fold (with_tables two trans (lifts r)). apply qsum_map_ext. intros s Hs. apply filter_In in Hs as [Hs _]. exact (demands_weight T e r s OFF M Hs).
Qed.
Lemma demands_posterior T e r q : (forall v, In v (dkeys e) -> ~ In v (map fst trans)) ->
  meant two (map (fun vp => (fst vp, Soft (data (T vp)))) trans) r -> posterior two (e ++ r) q = posterior (with_tables two trans (lifts r)) e q.
Proof. intros OFF M. unfold posterior. rewrite !(demands_mass T e r _ OFF M). reflexivity. Qed.

(** These tables are the demanded ones, up to a factor and the rounding of the own distributions. *)
Lemma lifts_near T r vp : In vp trans -> meant two (map (fun vp => (fst vp, Soft (data (T vp)))) trans) r ->
  shape (T vp) = [length (values_of two (fst vp))] -> Forall (fun x => (0 <= x)%Qc) (data (T vp)) -> (exists i, i < length (data (T vp)) /\ (0 < nth i (data (T vp)) 0)%Qc) ->
  table_near j (T vp) (lifts r vp).
Proof.
  intros I M SH F (i0 & Hi0 & P0). destruct vp as [v p]. cbn [fst] in *.
  assert (exists n, In n (bnodes two) /\ dn_name n = v) as (n & Hn & En) by (apply (in_bnames two), (trans_in_two b0 two trans WI), (in_map fst _ _ I)).
  assert (MV : exists l, dget v r = Some (Soft l) /\ moves (prior two v) l (data (T (v, p)))).
  { assert (ND := wi_nodup _ _ _ WI). revert r M ND I. generalize trans. intros tr. induction tr as [|(u & w) tr IH]; intros r M ND I; [destruct I|]. cbn [map fst] in *. inversion M as [| |? ? l ? r' MV M']; subst. inversion ND as [|? ? Nu ND']; subst.
    destruct I as [I|I]; [injection I as -> ->; exists l; cbn; rewrite String.eqb_refl; auto|]. destruct (IH r' M' ND' I) as (l' & D & X). exists l'. cbn [dget]. rewrite eqb_neq_s; [auto|]. intros E. apply Nu. rewrite <- E. exact (in_map fst _ _ I). }
  destruct MV as (l & D & L1 & L2 & L3 & kap & K & EQ). destruct (OP n Hn) as (c0 & C0 & CL); [rewrite En; exact (in_map fst _ _ I)|].
  assert (VV : values_of two v = dn_values n) by (rewrite <- En; apply values_of_node; assumption).
  assert (LP : length (prior two v) = length (dn_values n)) by (unfold prior; rewrite map_length, VV; reflexivity).
  assert (PA : forall i, i < length (dn_values n) -> nth i (prior two v) 0%Qc = posterior two [] [(v, nth i (dn_values n) "")]).
  { intros i Hi. unfold prior. rewrite VV. rewrite (nth_indep (map _ _) 0%Qc (posterior two [] [(v, "")])) by (rewrite map_length; exact Hi). apply (map_nth (fun x => posterior two [] [(v, x)])). }
  assert (ND : NoDup (dn_values n)) by apply (wn_values _ _ (wb_nodes _ W2 n Hn)).
  assert (KP : (0 < kap)%Qc).
  { assert (Hi : i0 < length (prior two v)) by lia. assert (X := EQ _ Hi). assert (0 <= kap * nth i0 (data (T (v, p))) 0)%Qc.
    { rewrite <- X. apply Qcmult_nonneg; [|apply nth_Forall_nonneg, L3]. rewrite PA by lia. apply posterior_nonneg; [exact W2|exact N2|apply (ev_none two)]. }
    destruct (Qc_dec kap 0) as [[A|A]|A]; [|exact A|contradiction]. exfalso.
    set (y := nth i0 (data (T (v, p))) 0%Qc) in *. assert (B := Qcmult_lt_compat_r _ _ _ P0 A). rewrite Qcmult_0_l in B. exact (Qclt_not_le _ _ B H). }
  assert (LE : lifts r (v, p) = lifted n l) by (unfold lifts; cbn [fst]; rewrite (find_node two W2 v n Hn En), D; reflexivity). rewrite LE. split; [cbn [lifted shape]; rewrite SH, VV; reflexivity|].
  exists (kap / c0)%Qc. split; [unfold Qcdiv; apply pos_mul; [exact KP|apply pos_inv, C0]|]. cbn [lifted data]. rewrite En in CL |- *.
  set (Fx := fun x => (entry n [(v, x)] * nth (position x (dn_values n)) l 0)%Qc).
  assert (X : forall i, i < length (dn_values n) -> close j (kap / c0 * nth i (data (T (v, p))) 0)%Qc (Fx (nth i (dn_values n) ""))).
  { intros i Hi. unfold Fx. rewrite position_idx, idx_nth by assumption. assert (E := EQ i ltac:(lia)). rewrite PA in E by exact Hi.
    assert (C := CL _ (nth_In _ "" Hi)). apply close_sym in C.
    replace (kap / c0 * nth i (data (T (v, p))) 0)%Qc with (posterior two [] [(v, nth i (dn_values n) "")] * (nth i l 0 * / c0))%Qc by (unfold Qcdiv; transitivity (kap * nth i (data (T (v, p))) 0 * / c0)%Qc; [rewrite <- E; ring|ring]).
    replace (entry n [(v, nth i (dn_values n) "")] * nth i l 0)%Qc with (c0 * entry n [(v, nth i (dn_values n) "")] * (nth i l 0 * / c0))%Qc by (field; apply pos_neq, C0).
    rewrite <- (Nat.add_0_r j). apply close_mul; [exact C|]. apply close_refl, Qcmult_nonneg; [apply nth_Forall_nonneg, L3|apply Qclt_le_weak, pos_inv, C0]. }
  assert (LD : length (data (T (v, p))) = length (dn_values n)) by lia. clear - X LD. revert X LD. generalize (data (T (v, p))) (dn_values n) Fx. intros q. induction q as [|y q IH]; intros [|x vs] G X LD; cbn [length] in LD; try discriminate; cbn [map]; constructor.
  - exact (X 0 ltac:(cbn; lia)).
  - apply IH; [|lia]. intros i Hi. exact (X (S i) ltac:(cbn; lia)).
Qed.
End Bridge.
End Near.
