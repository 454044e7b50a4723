(** Prior feedback on snapshots of the networks: which network answers slice k,
    and when it is exact. *)
From Coq Require Import Field Relations.
From Verif Require Import Base BaseFacts NDArray NDArrayFacts SumCalc Factor FactorFacts Exact Spec SpecFacts Order OrderSpec JoinTree TreeSpec DecFacts MCProof DynSpec.

(** Networks with other tables. *)
Definition with_table (n : dnode) (a : ndarray) : dnode := mkN (dn_name n) (dn_values n) (dn_parents n) (dn_pdict n) a.
Definition fed1 (d : dict ndarray) (n : dnode) : dnode := match dget (dn_name n) d with Some a => with_table n a | None => n end.
Definition fed (b : bn) (d : dict ndarray) : bn := mkBN (map (fed1 d) (bnodes b)) (border b) (bedges b).

(** The table that feeds back P(p | ev). *)
Definition prior_table (b : bn) (ev : evidence) (p : string) : ndarray :=
  mkArr [length (values_of b p)] (map (fun x => posterior b ev [(p, x)]) (values_of b p)).

Section Pure.
Variables b0 two : bn.
Variable trans : list (string * string).

Definition fed_tables (b : bn) (ev : evidence) : dict ndarray := map (fun vp => (fst vp, prior_table b ev (snd vp))) trans.

(** The network that answers slice [length evs] after evidence [evs]. *)
Fixpoint slice_bn (evs : list evidence) : bn :=
  match evs with
  | [] => b0
  | ev :: evs' => fed two (fed_tables (slice_bn evs') ev)
  end.

Lemma fed1_name d n : dn_name (fed1 d n) = dn_name n. Proof. unfold fed1. destruct (dget _ d); reflexivity. Qed.
Lemma fed1_values d n : dn_values (fed1 d n) = dn_values n. Proof. unfold fed1. destruct (dget _ d); reflexivity. Qed.
Lemma fed1_parents d n : dn_parents (fed1 d n) = dn_parents n. Proof. unfold fed1. destruct (dget _ d); reflexivity. Qed.
Lemma fed1_pdict d n : dn_pdict (fed1 d n) = dn_pdict n. Proof. unfold fed1. destruct (dget _ d); reflexivity. Qed.

Lemma fed_bnames b d : bnames (fed b d) = bnames b.
Proof. unfold bnames, fed. cbn. rewrite map_map. apply map_ext. intros n. apply fed1_name. Qed.
Lemma fed_bvars b d : bvars (fed b d) = bvars b.
Proof. unfold bvars, fed. cbn. rewrite map_map. apply map_ext. intros n. rewrite fed1_name, fed1_values. reflexivity. Qed.

Lemma find_map {A B} (f : A -> B) (P : B -> bool) l : find P (map f l) = option_map f (find (fun x => P (f x)) l).
Proof. induction l as [|x l IH]; [reflexivity|]. cbn. destruct (P (f x)); [reflexivity|exact IH]. Qed.
Lemma find_ext {A} (P Q : A -> bool) l : (forall x, P x = Q x) -> find P l = find Q l.
Proof. intros E. induction l as [|x l IH]; [reflexivity|]. cbn. rewrite E, IH. reflexivity. Qed.

Lemma fed_values b d v : values_of (fed b d) v = values_of b v.
Proof.
  unfold values_of, fed. cbn. rewrite find_map. rewrite (find_ext _ (fun n => String.eqb v (dn_name n))) by (intros n; rewrite fed1_name; reflexivity).
  destruct (find _ _) as [n|]; [|reflexivity]. cbn. apply fed1_values.
Qed.

Lemma evw_fed ev d n s : evidence_weight ev (fed1 d n) s = evidence_weight ev n s.
Proof. unfold evidence_weight. rewrite fed1_name, fed1_values. reflexivity. Qed.

Lemma fed_arcs b d : same_arcs b (fed b d).
Proof. unfold same_arcs, fed. cbn. rewrite map_map. apply map_ext. intros n. rewrite fed1_name, fed1_parents. reflexivity. Qed.

(** Wherever the new tables fit. *)
Definition fits (b : bn) (d : dict ndarray) : Prop := forall n a, In n (bnodes b) -> dget (dn_name n) d = Some a ->
  shape a = map (fun p => length (snd p)) ((dn_name n, dn_values n) :: dn_parents n) /\ length (data a) = prodn (shape a).

Lemma fed_wf b d : wf_bn b -> fits b d -> wf_bn (fed b d).
Proof.
  intros WB F. constructor; [rewrite fed_bnames; apply WB|]. intros m Hm. unfold fed in Hm. cbn in Hm. apply in_map_iff in Hm as (n & <- & Hn).
  assert (W := wb_nodes b WB n Hn). constructor; rewrite ?fed1_name, ?fed1_values, ?fed1_parents, ?fed1_pdict.
  - apply W.
  - apply W.
  - intros p vals Hp. destruct (wn_pvals _ _ W p vals Hp) as (m & Hm & E1 & E2). exists (fed1 d m). rewrite fed1_name, fed1_values.
    split; [|auto]. unfold fed. cbn. exact (in_map _ _ _ Hm).
  - unfold fed1. destruct (dget (dn_name n) d) as [a|] eqn:D; [|apply W]. cbn [dn_cpd with_table]. apply (F n a Hn D).
  - unfold fed1. destruct (dget (dn_name n) d) as [a|] eqn:D; [|apply W]. cbn [dn_cpd with_table]. apply (F n a Hn D).
  - apply W.
Qed.

Lemma fed_nonneg b d : nonneg_bn b -> (forall v a, dget v d = Some a -> Forall (fun x => (0 <= x)%Qc) (data a)) -> nonneg_bn (fed b d).
Proof.
  intros NN F m Hm. unfold fed in Hm. cbn in Hm. apply in_map_iff in Hm as (n & <- & Hn). unfold fed1.
  destruct (dget (dn_name n) d) as [a|] eqn:D; [|apply NN, Hn]. apply (F _ _ D).
Qed.

Lemma fed_interacts b d u v : interacts (fed b d) u v <-> interacts b u v.
Proof.
  unfold interacts. split.
  - intros (N & m & Hm & A). split; [exact N|]. unfold fed in Hm. cbn in Hm. apply in_map_iff in Hm as (n & <- & Hn). exists n. rewrite fed1_name, fed1_parents in A. auto.
  - intros (N & n & Hn & A). split; [exact N|]. exists (fed1 d n). rewrite fed1_name, fed1_parents. split; [unfold fed; cbn; exact (in_map _ _ _ Hn)|exact A].
Qed.

Lemma fed_suits b d o : suits b o -> fits b d -> suits (fed b d) o.
Proof.
  intros U F. constructor.
  - apply fed_wf; [apply U|exact F].
  - destruct (su_graph _ _ U) as [A B C]. constructor; rewrite fed_bnames; assumption.
  - intros u v. unfold fed. cbn [bedges bnodes]. rewrite (su_edges _ _ U u v). split.
    + intros (n & Hn & E & I). exists (fed1 d n). rewrite fed1_name, fed1_parents. split; [exact (in_map _ _ _ Hn)|auto].
    + intros (m & Hm & E & I). apply in_map_iff in Hm as (n & <- & Hn). rewrite fed1_name in E. rewrite fed1_parents in I. eauto.
  - assert (N := su_some _ _ U). unfold fed. cbn. destruct (bnodes b); [congruence|]. discriminate.
  - rewrite fed_bnames. apply U.
  - intros cs L. replace (moral_graph (fed b d)) with (moral_graph b); [apply (su_tree _ _ U)|].
    unfold moral_graph. f_equal. unfold fed. cbn [bnodes]. induction (bnodes b) as [|n l IH]; [reflexivity|]. cbn. rewrite fed1_pdict, IH. reflexivity.
  - rewrite fed_bnames. apply U.
Qed.

Lemma fed_order b d order : order_or_default (fed b d) order = order_or_default b order.
Proof.
  destruct order as [[|x o]|]; [|reflexivity|]; unfold order_or_default, get_min_degree_order; unfold fed; cbn [bnodes]; rewrite map_length; reflexivity.
Qed.

(** ** Exactness. *)
Section Exact.
Hypothesis WI : wired b0 two trans.
Hypothesis W0 : wf_bn b0.
Hypothesis W2 : wf_bn two.

Lemma slice_values evs p v : In (v, p) trans -> values_of (slice_bn evs) p = values_of two v.
Proof.
  intros I. destruct evs as [|ev evs]; cbn [slice_bn]; [apply (wi_b0 _ _ _ WI v p I)|]. rewrite fed_values. apply (wi_two _ _ _ WI v p I).
Qed.

Lemma dget_tables B ev v p : In (v, p) trans -> dget v (fed_tables B ev) = Some (prior_table B ev p).
Proof.
  intros I. apply In_dget.
  - unfold dkeys, fed_tables. rewrite map_map. cbn. apply WI.
  - unfold fed_tables. apply in_map_iff. exists (v, p). auto.
Qed.
Lemma dget_tables_inv B ev v a : dget v (fed_tables B ev) = Some a -> exists p, In (v, p) trans /\ a = prior_table B ev p.
Proof. intros H. apply dget_In in H. unfold fed_tables in H. apply in_map_iff in H as ((v' & p) & E & I). injection E as <- <-. eauto. Qed.
Lemma dget_tables_none B ev v : ~ In v (map fst trans) -> dget v (fed_tables B ev) = None.
Proof. intros N. apply dget_None. unfold dkeys, fed_tables. rewrite map_map. exact N. Qed.

Lemma root_unique v p n : In (v, p) trans -> In n (bnodes two) -> dn_name n = v -> dn_parents n = [].
Proof.
  intros I Hn E. destruct (wi_root _ _ _ WI v p I) as (m & Hm & E' & P).
  assert (F := find_node two W2 v n Hn E). rewrite (find_node two W2 v m Hm E') in F. injection F as <-. exact P.
Qed.

Lemma tables_fit evs ev : fits two (fed_tables (slice_bn evs) ev).
Proof.
  intros n a Hn D. apply dget_tables_inv in D as (p & I & ->). rewrite (root_unique _ _ n I Hn eq_refl). cbn.
  rewrite (slice_values evs p _ I), (values_of_node two W2 n Hn), map_length. split; [reflexivity|ring].
Qed.

Lemma slice_wf evs : wf_bn (slice_bn evs).
Proof. destruct evs as [|ev evs]; cbn [slice_bn]; [exact W0|]. apply fed_wf; [exact W2|]. apply tables_fit. Qed.

Lemma slice_bnames evs : bnames (slice_bn evs) = bnames (slice_base b0 two (length evs)).
Proof. destruct evs as [|ev evs]; cbn [slice_bn length slice_base]; [reflexivity|]. apply fed_bnames. Qed.
Lemma slice_values_of evs v : values_of (slice_bn evs) v = values_of (slice_base b0 two (length evs)) v.
Proof. destruct evs as [|ev evs]; cbn [slice_bn length slice_base]; [reflexivity|]. apply fed_values. Qed.

Lemma slice_ev_ok evs ev : ev_ok (slice_base b0 two (length evs)) ev -> ev_ok (slice_bn evs) ev.
Proof.
  intros [ND H]. split; [exact ND|]. intros v e I. rewrite slice_bnames. intros Hv. specialize (H v e I Hv).
  destruct e; rewrite slice_values_of; exact H.
Qed.

Lemma posterior_nonneg b ev q : wf_bn b -> nonneg_bn b -> ev_ok b ev -> (0 <= posterior b ev q)%Qc.
Proof.
  intros W N E. unfold posterior. destruct (qeqb _ _) eqn:Z; [apply Qcle_refl|]. apply Qcmult_nonneg; [apply mass_nonneg; assumption|].
  apply Qclt_le_weak, Qcinv_pos. assert (M := mass_nonneg b W ev [] N E). apply qeqb_false in Z. destruct (Qcle_lt_or_eq _ _ M); [assumption|congruence].
Qed.

Lemma slice_nonneg evs : nonneg_bn b0 -> nonneg_bn two -> legal_evs b0 two evs -> nonneg_bn (slice_bn evs).
Proof.
  intros N0 N2. induction evs as [|ev evs IH]; [intros _; exact N0|]. intros [[E _] L]. cbn [slice_bn]. apply fed_nonneg; [exact N2|].
  intros v a D. apply dget_tables_inv in D as (p & I & ->). cbn. apply Forall_forall. intros x Hx. apply in_map_iff in Hx as (y & <- & _).
  apply posterior_nonneg; [apply slice_wf|apply IH, L|apply slice_ev_ok, E].
Qed.

(** The fed tables contribute the posteriors of the slice before. *)
Lemma entry_fed evs ev n s v p : In n (bnodes two) -> In (v, p) trans -> dn_name n = v -> In s (states (bvars two)) ->
  entry (fed1 (fed_tables (slice_bn evs) ev) n) s = posterior (slice_bn evs) ev [(p, look s v)].
Proof.
  intros Hn I E Hs. unfold fed1. rewrite E, (dget_tables _ _ _ _ I). unfold entry. cbn [with_table dn_cpd dn_name dn_values dn_parents].
  rewrite (root_unique _ _ n I Hn E), E. cbn [map fst snd]. unfold aget, prior_table. cbn [shape data ravel].
  assert (V : values_of (slice_bn evs) p = dn_values n) by (rewrite (slice_values evs p v I), <- E; apply values_of_node; assumption).
  rewrite V. assert (L : In (look s v) (dn_values n)).
  { apply (states_legal (bvars two)) with (s := s) (v := v); [rewrite bnames_bvars; apply W2|exact Hs|]. unfold bvars. apply in_map_iff. exists n. rewrite E. auto. }
  rewrite position_idx. match goal with |- nth ?k _ _ = _ => replace k with (idx (look s v) (dn_values n)) by (cbn; ring) end.
  rewrite (nth_indep _ 0%Qc (posterior (slice_bn evs) ev [(p, "")])) by (rewrite map_length; apply idx_lt, L).
  rewrite (map_nth (fun x => posterior (slice_bn evs) ev [(p, x)])). do 3 f_equal. apply nth_idx, L.
Qed.

Lemma filter_names_perm (P : string -> bool) : (forall v, In v (map fst trans) -> In v (bnames two)) ->
  Permutation (map dn_name (filter (fun n => mem (dn_name n) (map fst trans)) (bnodes two))) (map fst trans).
Proof.
  intros I. apply NoDup_Permutation.
  - assert (ND := wb_names _ W2). unfold bnames in ND. revert ND. generalize (bnodes two). intros l ND. induction l as [|n l IH]; cbn; [constructor|].
    cbn in ND. inversion ND; subst. destruct (mem (dn_name n) (map fst trans)); [|auto]. cbn. constructor; [|auto].
    intros Hn. apply in_map_iff in Hn as (m & E & Hm). apply filter_In in Hm as [Hm _]. apply H1. rewrite <- E. exact (in_map _ _ _ Hm).
  - apply WI.
  - intros v. split.
    + intros H. apply in_map_iff in H as (n & <- & H). apply filter_In in H as [_ H]. apply mem_In, H.
    + intros H. destruct (in_bnames two v (I v H)) as (n & Hn & E). apply in_map_iff. exists n. split; [exact E|].
      apply filter_In. split; [exact Hn|]. apply mem_In. rewrite E. exact H.
Qed.

Lemma trans_in_two v : In v (map fst trans) -> In v (bnames two).
Proof. intros H. apply in_map_iff in H as ((v' & p) & E & I). cbn in E. subst. destruct (wi_root _ _ _ WI v p I) as (n & Hn & <- & _). exact (in_map _ _ _ Hn). Qed.

(** Products over the nodes of the transitions. *)
Lemma qprod_trans (F : string -> Qc) (G : string * string -> Qc) : (forall v p, In (v, p) trans -> F v = G (v, p)) ->
  qprod (map (fun n => F (dn_name n)) (filter (fun n => mem (dn_name n) (map fst trans)) (bnodes two))) = qprod (map G trans).
Proof.
  intros H. rewrite <- (map_map dn_name F). rewrite (qprod_perm _ (map F (map fst trans))) by (apply Permutation_map, filter_names_perm; [exact (fun _ => true)|exact trans_in_two]).
  rewrite map_map. apply qprod_map_ext. intros (v & p) I. apply H, I.
Qed.

Lemma weight_fed evs ev' ev s : In s (states (bvars two)) ->
  weight (slice_bn (ev' :: evs)) ev s =
  (step_weight two trans ev s * qprod (map (fun vp => posterior (slice_bn evs) ev' [(snd vp, look s (fst vp))]) trans))%Qc.
Proof.
  intros Hs. unfold weight, joint, step_weight. cbn [slice_bn]. unfold fed. cbn [bnodes]. rewrite !map_map.
  rewrite (qprod_map_ext (fun x => evidence_weight ev (fed1 _ x) s) (fun n => evidence_weight ev n s)) by (intros n _; apply evw_fed).
  rewrite (qprod_split _ (fun n => mem (dn_name n) (map fst trans))).
  rewrite (qprod_map_ext _ (fun n => entry n s) (filter (fun x => negb (mem (dn_name x) (map fst trans))) (bnodes two))).
  2: { intros n Hn. apply filter_In in Hn as [_ N]. apply negb_true_iff, mem_nIn in N. unfold fed1. rewrite dget_tables_none by exact N. reflexivity. }
  rewrite (qprod_map_ext _ (fun n => (fun v => match dget v trans with Some p => posterior (slice_bn evs) ev' [(p, look s v)] | None => 0%Qc end) (dn_name n))).
  2: { intros n Hn. apply filter_In in Hn as [Hn M]. apply mem_In in M. destruct (dget_key _ trans M) as (p & D). rewrite D. apply dget_In in D. apply (entry_fed evs ev' n s _ p Hn D eq_refl Hs). }
  rewrite (qprod_trans (fun v => match dget v trans with Some p => posterior (slice_bn evs) ev' [(p, look s v)] | None => 0%Qc end) (fun vp => posterior (slice_bn evs) ev' [(snd vp, look s (fst vp))])).
  2: { intros v p I. rewrite (In_dget v p trans) by (try exact I; apply WI). reflexivity. }
  ring.
Qed.

(** One step of the recursion. *)
Lemma filter_mass_step ev ev' evs q : filter_mass b0 two trans (ev :: ev' :: evs) q =
  qsum (map (fun s => step_weight two trans ev s * link_mass b0 two trans (ev' :: evs) s)%Qc (filter (agrees q) (states (bvars two)))).
Proof.
  unfold filter_mass, link_mass. cbn [length Nat.sub]. rewrite !Nat.sub_0_r. cbn [paths].
  rewrite qsum_filter, qsum_flat_map.
  rewrite (qsum_map_ext _ (fun h => qsum (map (fun s => if agrees q s then (if follows trans s (hd [] h) then step_weight two trans ev s * path_weight b0 two trans (ev' :: evs) h else 0)%Qc else 0%Qc) (states (bvars two))))).
  2: { intros h Hh. rewrite map_map. cbn [hd]. rewrite qsum_filter. apply qsum_map_ext. intros s _. destruct (follows trans s (hd [] h)), (agrees q s); reflexivity. }
  rewrite qsum_swap. rewrite (qsum_filter (agrees q)). apply qsum_map_ext. intros s _. destruct (agrees q s).
  - rewrite <- qsum_mult_l. rewrite qsum_filter. reflexivity.
  - apply qsum_zero. reflexivity.
Qed.

Lemma filter_mass_first ev q : filter_mass b0 two trans [ev] q = mass b0 ev q.
Proof.
  unfold filter_mass, mass. cbn [length Nat.sub paths]. rewrite qsum_filter, map_map, <- qsum_filter. reflexivity.
Qed.

Section Nonneg.
Hypothesis N0 : nonneg_bn b0.
Hypothesis N2 : nonneg_bn two.

Lemma entry_nonneg b n s : nonneg_bn b -> In n (bnodes b) -> (0 <= entry n s)%Qc.
Proof. intros N H. unfold entry, aget. apply nth_Forall_nonneg, N, H. Qed.
Lemma evw_nonneg b ev n s : ev_ok b ev -> In n (bnodes b) -> (0 <= evidence_weight ev n s)%Qc.
Proof.
  intros [_ E] Hn. unfold evidence_weight. destruct (dget (dn_name n) ev) as [[x|l]|] eqn:D; [destruct (String.eqb _ _); discriminate| |discriminate].
  apply dget_In in D. apply nth_Forall_nonneg. apply (E _ _ D). exact (in_map _ _ _ Hn).
Qed.

Lemma step_nonneg ev s : ev_ok two ev -> (0 <= step_weight two trans ev s)%Qc.
Proof.
  intros E. unfold step_weight. apply Qcmult_nonneg; apply qprod_nonneg, Forall_forall; intros x Hx; apply in_map_iff in Hx as (n & <- & Hn).
  - apply filter_In in Hn as [Hn _]. exact (entry_nonneg two n s N2 Hn).
  - exact (evw_nonneg two ev n s E Hn).
Qed.

Lemma path_nonneg evs : legal_evs b0 two evs -> forall h, (0 <= path_weight b0 two trans evs h)%Qc.
Proof.
  induction evs as [|ev evs IH]; intros L h; [discriminate|]. destruct L as [[E _] L]. destruct evs as [|ev' evs].
  - destruct h as [|s [|s' h]]; try discriminate.
    + cbn. unfold weight. apply Qcmult_nonneg; apply qprod_nonneg, Forall_forall; intros x Hx; apply in_map_iff in Hx as (n & <- & Hn).
      * exact (entry_nonneg b0 n s N0 Hn). * exact (evw_nonneg b0 ev n s E Hn).
    + cbn [path_weight]. replace (step_weight two trans ev s * 0)%Qc with 0%Qc by ring. discriminate.
  - destruct h as [|s h]; [discriminate|]. change (0 <= step_weight two trans ev s * path_weight b0 two trans (ev' :: evs) h)%Qc.
    apply Qcmult_nonneg; [apply step_nonneg, E|]. apply IH, L.
Qed.

Lemma link_zero evs s : legal_evs b0 two evs -> filter_mass b0 two trans evs [] = 0%Qc -> link_mass b0 two trans evs s = 0%Qc.
Proof.
  intros L Z. unfold filter_mass in Z. apply qsum_nonneg_zero in Z.
  - unfold link_mass. apply qsum_zero. intros h Hh. apply filter_In in Hh as [Hh _]. rewrite Forall_forall in Z. apply Z. apply in_map.
    apply filter_In. split; [exact Hh|reflexivity].
  - apply Forall_forall. intros x Hx. apply in_map_iff in Hx as (h & <- & _). apply path_nonneg, L.
Qed.

Fixpoint all_factorised (evs : list evidence) : Prop :=
  match evs with [] => True | _ :: evs' => factorised b0 two trans evs /\ all_factorised evs' end.

Theorem slice_exact evs ev : legal_evs b0 two evs -> all_factorised evs -> forall q,
  posterior (slice_bn evs) ev q = filtered b0 two trans (ev :: evs) q.
Proof.
  revert ev. induction evs as [|ev' evs IH]; intros ev L FA q.
  { unfold posterior, filtered. rewrite !filter_mass_first. reflexivity. }
  destruct FA as [FA FA']. assert (L' := L). destruct L' as [_ L'].
  assert (M : forall q, mass (slice_bn (ev' :: evs)) ev q = (filter_mass b0 two trans (ev :: ev' :: evs) q / filter_mass b0 two trans (ev' :: evs) [])%Qc).
  { intros q'. rewrite filter_mass_step. unfold mass. replace (bvars (slice_bn (ev' :: evs))) with (bvars two) by (symmetry; apply fed_bvars). unfold Qcdiv. rewrite Qcmult_comm, <- qsum_mult_l.
    apply qsum_map_ext. intros s Hs. apply filter_In in Hs as [Hs _]. rewrite (weight_fed evs ev' ev s Hs).
    rewrite (qprod_map_ext _ (fun vp => filtered b0 two trans (ev' :: evs) [(snd vp, look s (fst vp))])) by (intros vp _; apply IH; assumption).
    rewrite <- (FA s Hs). unfold Qcdiv. ring. }
  unfold posterior, filtered. rewrite !M. set (Z := filter_mass b0 two trans (ev' :: evs) []) in *.
  destruct (Qc_eq_dec Z 0) as [EZ|NZ].
  - assert (K : forall q, filter_mass b0 two trans (ev :: ev' :: evs) q = 0%Qc).
    { intros q'. rewrite filter_mass_step. apply qsum_zero. intros s _. rewrite (link_zero (ev' :: evs) s L EZ). ring. }
    rewrite !K, EZ. reflexivity.
  - set (A := filter_mass b0 two trans (ev :: ev' :: evs) []) in *. destruct (Qc_eq_dec A 0) as [EA|NA].
    + rewrite EA. replace (0 / Z)%Qc with 0%Qc by (unfold Qcdiv; ring). reflexivity.
    + replace (qeqb A 0) with false by (symmetry; apply qeqb_false; exact NA).
      replace (qeqb (A / Z) 0) with false; [field; auto|]. symmetry. apply qeqb_false. intros H. apply NA.
      replace A with (A / Z * Z)%Qc by (field; exact NZ). rewrite H. ring.
Qed.
End Nonneg.
End Exact.

(** With one transition nothing is lost. *)
Lemma one_factorised v p evs : trans = [(v, p)] -> factorised b0 two trans evs.
Proof.
  intros E s Hs. rewrite E. cbn [map qprod fst snd]. unfold filtered.
  assert (K : link_mass b0 two [(v, p)] evs s = filter_mass b0 two [(v, p)] evs [(p, look s v)]).
  { unfold link_mass, filter_mass. rewrite !qsum_filter. apply qsum_map_ext. intros h _. unfold follows, agrees. cbn [forallb fst snd]. rewrite (String.eqb_sym (look s v)). reflexivity. }
  rewrite K. destruct (qeqb _ _) eqn:Z; [|ring]. apply qeqb_true in Z. rewrite Z. unfold Qcdiv. replace (/ 0)%Qc with 0%Qc by reflexivity. ring.
Qed.
End Pure.
