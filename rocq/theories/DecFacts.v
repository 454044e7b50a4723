(** Setting decisions, and the expected utility. *)
From Verif Require Import Base BaseFacts NDArray NDArrayFacts SumCalc Factor FactorFacts Exact Spec SpecFacts Node Network NetSpec NetFacts NetInv
  NetView NetTable MCSpec Decision DecSpec DecInv DecVE DecView DecNorm.
From Coq Require Import Field.

Lemma filter_filter {A} (P Q : A -> bool) l : filter P (filter Q l) = filter (fun x => Q x && P x) l.
Proof. induction l as [|x l IH]; cbn; [reflexivity|]. destruct (Q x); cbn; [destruct (P x); rewrite IH; reflexivity|exact IH]. Qed.

(** [n'] is [n] with the rule that always decides [d]. *)
Definition decided (n n' : node) (d : string) : Prop := exists t, n' = with_cpd n t (nvalid n) /\ real_array (tarr t) /\
  shape (tarr t) = shape (tarr (ncpd n)) /\
  forall i js, inb (shape (tarr t)) (i :: js) -> aget (tarr t) (i :: js) = if Nat.eqb (idx d (nvalues n)) i then 1%Qc else 0%Qc.

Lemma set_decision_ok h n d : d_ok h n -> nkind n = KDecision -> In d (nvalues n) ->
  exists n', set_decision n d = (n', Ok tt) /\ decided n n' d.
Proof.
  intros D K Id. assert (SH := dk_shape _ _ D). assert (RA := dk_arr _ _ D). unfold set_decision. rewrite K.
  assert (NE : nvalues n <> []) by (intros X; rewrite X in Id; destruct Id).
  rewrite (own_dims_values n (or_intror K) NE) in SH.
  destruct (ncpd n) as [x|int a] eqn:EC; [discriminate SH|]. cbn [tarr] in *.
  rewrite (own_index_ok n d Id). cbn [rbind map]. unfold put, assign. cbn [ncpd with_cpd].
  assert (SO : sel_ok (shape (amap (fun _ => 0%Qc) a)) [Fix (idx d (nvalues n))] = true).
  { cbn [amap shape]. rewrite SH. cbn. rewrite (proj2 (Nat.ltb_lt _ _) (idx_lt d _ Id)). destruct (map _ _); reflexivity. }
  rewrite SO. cbn [rbind]. eexists. split; [reflexivity|]. eexists. split; [reflexivity|]. cbn [tarr].
  split; [apply wfa_tabulate|]. split; [rewrite EC; reflexivity|]. intros i js B. rewrite shape_tabulate in B. rewrite aget_tabulate by exact B.
  cbn [sel_match]. rewrite andb_true_r. destruct (Nat.eqb (idx d (nvalues n)) i); [|apply (aget_amap (fun _ => 0%Qc) a); [exact RA|exact B]].
  destruct int; [|reflexivity]. apply Qc_is_canon. reflexivity.
Qed.

Lemma decided_same n n' d : decided n n' d -> face n' = face n /\ nporder n' = nporder n /\ nparents n' = nparents n.
Proof. intros (t & -> & _). repeat split. Qed.

Record extends (w w' : dworld) (ds : dict string) : Prop := {
  ex_look : dlook w' = dlook w;
  ex_objs : forall v i n, dholds w v i n -> exists n', dholds w' v i n' /\
    (dget v ds = None -> n' = n) /\ forall d, dget v ds = Some d -> decided n n' d
}.

Lemma decided_trans_face w w' ds v i n : extends w w' ds -> dholds w v i n ->
  exists n', dholds w' v i n' /\ face n' = face n /\ nporder n' = nporder n.
Proof.
  intros E H. destruct (ex_objs _ _ _ E v i n H) as (n' & H' & A & B). exists n'. split; [exact H'|].
  destruct (dget v ds) as [d|]; [|rewrite (A eq_refl); auto]. destruct (decided_same _ _ _ (B d eq_refl)) as (F & P & _). auto.
Qed.

Lemma decide_all_ok ds : forall w, dinv w -> legal_decisions w ds ->
  exists w', decide_all w ds = (w', Ok tt) /\ dinv w' /\ extends w w' ds.
Proof.
  induction ds as [|(v & d) ds IH]; intros w I [ND L].
  - exists w. split; [reflexivity|]. split; [exact I|]. constructor; [reflexivity|]. intros v i n H. exists n. split; [exact H|].
    split; [reflexivity|]. intros d X. discriminate X.
  - cbn [dkeys map fst] in ND. inversion ND as [|? ? NI ND']; subst.
    destruct (L v d (or_introl eq_refl)) as (i & n & H & K & Id). cbn [decide_all]. rewrite (proj1 H).
    destruct (set_decision_ok (dheap w) n d (di_ok w I i n (proj2 H)) K Id) as (n1 & E1 & D1).
    assert (I1 := inv_decide w i d I). unfold d_decide in *. rewrite (proj2 H), E1 in *. cbn [fst snd] in *.
    set (w1 := mkDW (list_set i n1 (dheap w)) (dlook w)) in *.
    assert (Get : forall u j m, dholds w u j m -> dholds w1 u j (if Nat.eq_dec j i then n1 else m)).
    { intros u j m [A B]. split; [exact A|]. cbn. rewrite nth_error_list_set, B. destruct (Nat.eq_dec j i); reflexivity. }
    assert (Nm : forall u j m, dholds w u j m -> j = i -> u = v /\ m = n).
    { intros u j m Hm ->. assert (m = n) by (destruct Hm, H; congruence). subst m. split; [|reflexivity].
      rewrite <- (dnamed w I u i n Hm). apply (dnamed w I v i n H). }
    destruct (decided_same _ _ _ D1) as (F1 & _).
    destruct (IH w1 I1) as (w2 & E2 & I2 & X2).
    { split; [exact ND'|]. intros u e Hu. destruct (L u e (or_intror Hu)) as (j & m & Hm & Km & Ie).
      exists j. eexists. split; [apply (Get u j m Hm)|]. destruct (Nat.eq_dec j i) as [Ej|_]; [|auto].
      destruct (Nm u j m Hm Ej) as [_ ->]. unfold face in F1. injection F1 as F2 F3 F4. rewrite F2, F4. auto. }
    exists w2. split; [exact E2|]. split; [exact I2|]. constructor; [rewrite (ex_look _ _ _ X2); reflexivity|].
    intros u j m Hm. destruct (ex_objs _ _ _ X2 u j _ (Get u j m Hm)) as (m' & Hm' & A & B). exists m'. split; [exact Hm'|].
    cbn [dget]. destruct (String.eqb_spec u v) as [->|NE].
    + assert (j = i) by (destruct Hm, H; congruence). subst j. destruct (Nat.eq_dec i i) as [_|X]; [|contradiction].
      destruct (Nm v i m Hm eq_refl) as [_ ->]. split; [discriminate|]. intros e [= <-].
      rewrite (A (proj2 (dget_None v ds) NI)). exact D1.
    + destruct (Nat.eq_dec j i) as [Ej|Nj]; [destruct (Nm u j m Hm Ej) as [X _]; contradiction|]. split; [exact A|exact B].
Qed.

(** Networks that differ in the tables of the nodes [vs] only. *)
Record same_but (w w' : dworld) (vs : list string) : Prop := {
  sb_look : dlook w' = dlook w;
  sb_objs : forall v i n, dholds w v i n -> exists n', dholds w' v i n' /\ face n' = face n /\ nporder n' = nporder n /\ (~ In v vs -> n' = n)
}.

Lemma extends_same w w' ds : extends w w' ds -> same_but w w' (dkeys ds).
Proof.
  intros X. constructor; [apply (ex_look _ _ _ X)|]. intros v i n H. destruct (ex_objs _ _ _ X v i n H) as (n' & H' & A & B).
  exists n'. split; [exact H'|]. destruct (dget v ds) as [d|] eqn:D.
  - destruct (decided_same _ _ _ (B d eq_refl)) as (F & P & _). split; [exact F|]. split; [exact P|]. intros N. exfalso. apply N.
    apply dget_In in D. exact (in_map fst _ _ D).
  - rewrite (A eq_refl). auto.
Qed.

Lemma states_legal vars : NoDup (map fst vars) -> forall s, In s (states vars) -> forall v l, In (v, l) vars -> In (look s v) l.
Proof.
  induction vars as [|(u & m) vars IH]; intros ND s Hs v l Hv; [destruct Hv|]. cbn in ND, Hs. inversion ND as [|? ? Nu ND']; subst.
  apply in_flat_map in Hs as (x & Hx & Hs). apply in_map_iff in Hs as (s' & <- & Hs). unfold look. cbn [dget].
  destruct Hv as [E|Hv].
  - injection E as <- <-. rewrite String.eqb_refl. exact Hx.
  - assert (v <> u) by (intros ->; apply Nu; exact (in_map fst _ _ Hv)). rewrite eqb_neq_s by assumption. exact (IH ND' s' Hs v l Hv).
Qed.

Lemma utility_face n n' : face n' = face n -> is_utility n' = is_utility n.
Proof. unfold face, is_utility. intros [= -> _ _]. reflexivity. Qed.
Lemma chance_face n n' : face n' = face n -> is_chance n' = is_chance n.
Proof. unfold face, is_chance. intros [= -> _ _]. reflexivity. Qed.

Notation notu := (fun n => negb (is_utility n)).
Lemma notu_face n n' : face n' = face n -> notu n' = notu n.
Proof. intros F. cbv beta. rewrite (utility_face n n' F). reflexivity. Qed.

Lemma objects_old w P : dobjects w P =
  map (fun p => snapshot_node (dheap w) (deref (dheap w) (snd p))) (filter (fun p => P (deref (dheap w) (snd p))) (dlook w)).
Proof. unfold dobjects. rewrite (filter_map_comm (fun p => deref (dheap w) (snd p))), map_map. reflexivity. Qed.

Section Same.
Variables w w' : dworld.
Variable vs : list string.
Hypothesis I : dinv w.
Hypothesis I' : dinv w'.
Hypothesis X : same_but w w' vs.
Hypothesis T : dtidy w.

Lemma same_back v i n' : dholds w' v i n' -> exists n, dholds w v i n /\ face n' = face n /\ nporder n' = nporder n.
Proof.
  intros [D H]. rewrite (sb_look _ _ _ X) in D. destruct (di_named w I v i D) as (n & A & _).
  destruct (sb_objs _ _ _ X v i n (conj D A)) as (m & [_ Hm] & F & P & _). exists n. split; [split; assumption|].
  assert (m = n') by congruence. subst m. auto.
Qed.

Lemma same_tidy : dtidy w'.
Proof.
  intros v i n' H K. destruct (same_back v i n' H) as (n & Hn & F & _). unfold face in F. injection F as F1 F2 F3.
  rewrite F3. apply (T v i n Hn). congruence.
Qed.

Lemma same_vals q : dvals w' q = dvals w q.
Proof.
  unfold dvals. rewrite (sb_look _ _ _ X). destruct (dget q (dlook w)) as [i|] eqn:D; [|reflexivity].
  destruct (di_named w I q i D) as (n & A & _). destruct (sb_objs _ _ _ X q i n (conj D A)) as (m & [_ Hm] & F & P & _).
  rewrite (deref_ok _ _ _ A), (deref_ok _ _ _ Hm). unfold face in F. congruence.
Qed.

(** The objects of the two networks, by entry of the lookup. *)
Notation old p := (deref (dheap w) (snd p)).
Notation new p := (deref (dheap w') (snd p)).

Lemma same_entry p : In p (dlook w) -> dholds w (fst p) (snd p) (old p) /\ dholds w' (fst p) (snd p) (new p) /\
  face (new p) = face (old p) /\ nporder (new p) = nporder (old p) /\ (~ In (fst p) vs -> new p = old p).
Proof.
  destruct p as (v & i). intros Hp. cbn [fst snd]. assert (D : dget v (dlook w) = Some i) by (apply In_dget; [apply I|exact Hp]).
  destruct (di_named w I v i D) as (n & A & _). rewrite (deref_ok _ _ _ A). assert (H : dholds w v i n) by (split; assumption).
  destruct (sb_objs _ _ _ X v i n H) as (n' & H' & F & P & B). rewrite (deref_ok _ _ _ (proj2 H')).
  split; [exact H|]. split; [exact H'|]. auto.
Qed.

Lemma objects_by P : (forall n n', face n' = face n -> P n' = P n) ->
  dobjects w' P = map (fun p => snapshot_node (dheap w') (new p)) (filter (fun p => P (old p)) (dlook w)).
Proof.
  intros HP. unfold dobjects. rewrite (sb_look _ _ _ X). rewrite (filter_map_comm (fun p => new p)), map_map.
  f_equal. apply filter_ext_in. intros p Hp. apply HP, (same_entry p Hp).
Qed.

Lemma snap_same p : In p (dlook w) -> ~ In (fst p) vs ->
  snapshot_node (dheap w') (new p) = snapshot_node (dheap w) (old p).
Proof.
  intros Hp N. destruct (same_entry p Hp) as (H & H' & _ & _ & E). rewrite (E N) in *.
  assert (P := dshown w I _ _ _ H). assert (P' := dshown w' I' _ _ _ H').
  rewrite (map_ext (fun q => (q, dvals w' q)) (fun q => (q, dvals w q))) in P' by (intros q; rewrite same_vals; reflexivity).
  assert (E2 : dn_parents (snapshot_node (dheap w') (old p)) = dn_parents (snapshot_node (dheap w) (old p))) by congruence.
  unfold snapshot_node in *. cbn [dn_parents] in E2. rewrite E2. reflexivity.
Qed.

(** No table of a utility node changes. *)
Hypothesis L : forall v i n, In v vs -> dholds w v i n -> nkind n = KDecision.

Lemma objects_unchanged P : (forall n n', face n' = face n -> P n' = P n) -> (forall n, nkind n = KDecision -> P n = false) ->
  dobjects w' P = dobjects w P.
Proof.
  intros HP ND. rewrite (objects_by P HP), objects_old. apply map_ext_in. intros p Hp.
  apply filter_In in Hp as [Hp U]. apply snap_same; [exact Hp|]. intros V.
  destruct (same_entry p Hp) as (H & _). rewrite (ND _ (L _ _ _ V H)) in U. discriminate.
Qed.

Lemma utilities_same s : utilities w' s = utilities w s.
Proof.
  unfold utilities, dutils. rewrite (objects_unchanged is_utility utility_face); [reflexivity|].
  intros n K. unfold is_utility. rewrite K. reflexivity.
Qed.

Lemma bvars_same : bvars (dbn w') = bvars (dbn w).
Proof.
  unfold bvars, dbn. cbn [bnodes]. rewrite (objects_by notu notu_face), objects_old, !map_map.
  apply map_ext_in. intros p Hp. apply filter_In in Hp as [Hp _]. destruct (same_entry p Hp) as (_ & _ & F & _).
  unfold face in F. injection F as F1 F2 F3. cbn. rewrite F2, F3. reflexivity.
Qed.

Lemma open_same ds : incl vs (dkeys ds) -> open_nodes w' ds = open_nodes w ds.
Proof.
  intros S. unfold open_nodes, dbn. cbn [bnodes]. rewrite (objects_by notu notu_face), objects_old, !filter_map_comm.
  assert (E : filter (fun p => negb (mem (dn_name (snapshot_node (dheap w') (new p))) (dkeys ds))) (filter (fun p => notu (old p)) (dlook w)) =
              filter (fun p => negb (mem (dn_name (snapshot_node (dheap w) (old p))) (dkeys ds))) (filter (fun p => notu (old p)) (dlook w))).
  { apply filter_ext_in. intros p Hp. apply filter_In in Hp as [Hp _]. destruct (same_entry p Hp) as (_ & _ & F & _).
    unfold face in F. injection F as F1 F2 F3. cbn. rewrite F2. reflexivity. }
  rewrite E. apply map_ext_in. intros p Hp. apply filter_In in Hp as [Hp N]. apply filter_In in Hp as [Hp _].
  apply snap_same; [exact Hp|]. intros V. apply negb_true_iff, mem_nIn in N. apply N. apply S.
  destruct (same_entry p Hp) as (H & _). cbn. rewrite (dnamed w I _ _ _ H). exact V.
Qed.

Lemma plan_same ds U : incl vs (dkeys ds) -> plan_sum w' ds U = plan_sum w ds U.
Proof. intros S. unfold plan_sum. rewrite (open_same ds S), bvars_same. reflexivity. Qed.

Lemma value_same ds : incl vs (dkeys ds) -> plan_value w' ds = plan_value w ds.
Proof.
  intros S. unfold plan_value. rewrite !(plan_same ds _ S). f_equal. unfold plan_sum. apply qsum_map_ext. intros s _.
  rewrite utilities_same. reflexivity.
Qed.
End Same.

(** Networks after decisions. *)
Section Ext.
Variables w w' : dworld.
Variable ds : dict string.
Hypothesis I : dinv w.
Hypothesis I' : dinv w'.
Hypothesis X : extends w w' ds.
Hypothesis L : legal_decisions w ds.
Hypothesis T : dtidy w.
Let SB := extends_same w w' ds X.
Notation old p := (deref (dheap w) (snd p)).
Notation new p := (deref (dheap w') (snd p)).

Lemma legal_kinds v i n : In v (dkeys ds) -> dholds w v i n -> nkind n = KDecision.
Proof.
  intros V [D H]. apply in_map_iff in V as ((u & d) & <- & V). destruct (proj2 L u d V) as (j & m & [D' H'] & K & _). cbn in D. congruence.
Qed.

Lemma ext_tidy : dtidy w'. Proof. exact (same_tidy w w' _ I SB T). Qed.
Lemma ext_vals q : dvals w' q = dvals w q. Proof. exact (same_vals w w' _ I SB q). Qed.

Lemma ext_entry p : In p (dlook w) -> dholds w (fst p) (snd p) (old p) /\ dholds w' (fst p) (snd p) (new p) /\
  face (new p) = face (old p) /\ nporder (new p) = nporder (old p) /\
  (dget (fst p) ds = None -> new p = old p) /\ forall d, dget (fst p) ds = Some d -> decided (old p) (new p) d.
Proof.
  intros Hp. destruct (same_entry w w' _ I SB p Hp) as (H & H' & F & P & B). split; [exact H|]. split; [exact H'|]. split; [exact F|]. split; [exact P|].
  destruct (ex_objs _ _ _ X _ _ _ H) as (n' & H2 & C & D). assert (n' = new p) by (destruct H', H2; congruence). subst n'. auto.
Qed.

Lemma snap_undecided p : In p (dlook w) -> dget (fst p) ds = None ->
  snapshot_node (dheap w') (new p) = snapshot_node (dheap w) (old p).
Proof. intros Hp N. apply (snap_same w w' _ I I' SB p Hp). apply dget_None, N. Qed.

Lemma utilities_ext s : utilities w' s = utilities w s.
Proof. exact (utilities_same w w' _ I I' SB legal_kinds s). Qed.

Lemma bvars_ext : bvars (dbn w') = bvars (dbn w).
Proof. exact (bvars_same w w' _ I SB). Qed.

Lemma entry_decided p s d : In p (filter (fun p => notu (old p)) (dlook w)) -> In s (states (bvars (dbn w))) ->
  dget (fst p) ds = Some d ->
  entry (snapshot_node (dheap w') (new p)) s = if String.eqb (look s (fst p)) d then 1%Qc else 0%Qc.
Proof.
  intros Hp Hs D. apply filter_In in Hp as [Hp U]. destruct (ext_entry p Hp) as (H & H' & F & P & _ & E). destruct (E d D) as (t & En & RT & ST & V).
  assert (K : has_values (old p)).
  { apply (chance_kind w I _ _ _ H). destruct (is_utility (old p)); [discriminate|reflexivity]. }
  unfold face in F. injection F as F1 F2 F3.
  assert (SL := states_legal (bvars (dbn w))). rewrite bnames_bvars in SL. specialize (SL (wb_names _ (dbn_wf w I T)) s Hs).
  assert (Iv : In (look s (fst p)) (nvalues (old p))).
  { apply (SL (fst p)). rewrite <- (dbn_values w I T _ _ _ H K). apply (bvars_in (dbn w) (dbn_wf w I T)), (dbn_name w I _ _ _ H K). }
  unfold entry. cbn [map]. rewrite (dshown w' I' _ _ _ H'), map_map. cbn [fst snd snapshot_node dn_cpd dn_name dn_values].
  rewrite F2, F3, (dnamed w I _ _ _ H), P. rewrite En at 1. cbn [ncpd with_cpd].
  apply dget_In in D. destruct (proj2 L _ _ D) as (i & n & H2 & _ & Id). assert (EE : n = old p) by (destruct H, H2; congruence). subst n.
  rewrite V.
  - change position with idx. destruct (String.eqb_spec (look s (fst p)) d) as [->|N]; [rewrite Nat.eqb_refl; reflexivity|].
    destruct (Nat.eqb_spec (idx d (nvalues (old p))) (idx (look s (fst p)) (nvalues (old p)))) as [E3|_]; [|reflexivity].
    apply idx_inj in E3; [congruence|exact Id|exact Iv].
  - rewrite ST, (dshape w I _ _ _ H). assert (NE : nvalues (old p) <> []) by (intros Z; rewrite Z in Iv; destruct Iv).
    rewrite (own_dims_values _ K NE). constructor; [apply idx_lt, Iv|]. apply inb_map. intros q Iq.
    destruct (parent_dvals w I T _ _ _ q H Iq) as [E1 E2]. rewrite ext_vals. apply idx_lt. rewrite <- E1. apply (SL q).
    apply (bvars_in (dbn w) (dbn_wf w I T)), E2.
Qed.

Lemma qprod_ones {A} (f : A -> Qc) l : (forall x, In x l -> f x = 1%Qc) -> qprod (map f l) = 1%Qc.
Proof. induction l as [|x l IH]; cbn; intros H; [reflexivity|]. rewrite (H x (or_introl eq_refl)), IH; [ring|]. intros y Hy; apply H; right; exact Hy. Qed.
Lemma qprod_null {A} (f : A -> Qc) l x : In x l -> f x = 0%Qc -> qprod (map f l) = 0%Qc.
Proof. induction l as [|y l IH]; cbn; intros Hx E; [destruct Hx|]. destruct Hx as [->|Hx]; [rewrite E; ring|]. rewrite (IH Hx E). ring. Qed.
Lemma qprod_filter {A} (P : A -> bool) (f : A -> Qc) l : qprod (map f (filter P l)) = qprod (map (fun x => if P x then f x else 1%Qc) l).
Proof. induction l as [|y l IH]; cbn; [reflexivity|]. destruct (P y); cbn; rewrite IH; ring. Qed.

Lemma joint_decided s : In s (states (bvars (dbn w))) ->
  joint (dbn w') s = if agrees ds s then qprod (map (fun n => entry n s) (open_nodes w ds)) else 0%Qc.
Proof.
  intros Hs. unfold joint, open_nodes, dbn. cbn [bnodes]. rewrite (objects_by w w' _ I SB notu notu_face), map_map.
  rewrite (objects_old w (fun n => negb (is_utility n))), filter_map_comm, map_map. cbn [snapshot_node dn_name].
  set (l := filter (fun p => notu (old p)) (dlook w)). rewrite qprod_filter.
  transitivity (qprod (map (fun p => match dget (fst p) ds with
     | Some d => if String.eqb (look s (fst p)) d then 1%Qc else 0%Qc
     | None => entry (snapshot_node (dheap w) (old p)) s end) l)).
  { apply qprod_map_ext. intros p Hp. destruct (dget (fst p) ds) as [d|] eqn:D; [apply entry_decided; assumption|].
    rewrite snap_undecided; [reflexivity|apply filter_In in Hp; tauto|exact D]. }
  destruct (agrees ds s) eqn:A.
  - apply qprod_map_ext. intros p Hp. apply filter_In in Hp as [Hp _]. destruct (ext_entry p Hp) as (H & _).
    rewrite (dnamed w I _ _ _ H). destruct (dget (fst p) ds) as [d|] eqn:D.
    + assert (Mp : mem (fst p) (dkeys ds) = true) by (apply mem_In; apply dget_In in D; exact (in_map fst _ _ D)). rewrite Mp. cbn [negb].
      apply dget_In in D. unfold agrees in A. rewrite forallb_forall in A. specialize (A _ D). cbn in A. rewrite A. reflexivity.
    + apply dget_None in D. apply mem_nIn in D. rewrite D. reflexivity.
  - assert (EX : exists v d, In (v, d) ds /\ String.eqb (look s v) d = false).
    { clear - A. unfold agrees in A. induction ds as [|(v & d) l IH]; [discriminate|]. cbn in A. apply andb_false_iff in A as [A|A].
      - exists v, d. split; [left; reflexivity|exact A].
      - destruct (IH A) as (u & e & H & E). exists u, e. split; [right; exact H|exact E]. }
    destruct EX as (v & d & Hd & E). destruct (proj2 L v d Hd) as (i & n & H & K & _).
    apply (qprod_null _ l (v, i)).
    + apply filter_In. split; [apply dget_In, H|]. cbn [snd]. rewrite (deref_ok _ _ _ (proj2 H)). unfold is_utility. rewrite K. reflexivity.
    + cbn [fst]. rewrite (In_dget v d ds); [rewrite E; reflexivity|apply L|exact Hd].
Qed.

Lemma open_all b0 : open_nodes b0 [] = bnodes (dbn b0).
Proof. unfold open_nodes. cbn. induction (dobjects b0 _) as [|x l IH]; [reflexivity|]. cbn. rewrite IH. reflexivity. Qed.
Lemma agrees_all (l : list (dict string)) : filter (agrees []) l = l.
Proof. induction l as [|x l IH]; [reflexivity|]. cbn. rewrite IH. reflexivity. Qed.

Lemma plan_decided U : plan_sum w' [] U = plan_sum w ds U.
Proof.
  unfold plan_sum. rewrite open_all, agrees_all, qsum_filter, bvars_ext. apply qsum_map_ext. intros s Hs.
  change (qprod (map (fun n => entry n s) (bnodes (dbn w')))) with (joint (dbn w') s). rewrite (joint_decided s Hs).
  destruct (agrees ds s); ring.
Qed.

Lemma value_decided : plan_value w' [] = plan_value w ds.
Proof.
  unfold plan_value. rewrite !plan_decided. f_equal. unfold plan_sum. apply qsum_map_ext. intros s _. rewrite utilities_ext. reflexivity.
Qed.

Lemma nonneg_decided : nonneg_tables (open_nodes w ds) -> nonneg_bn (dbn w').
Proof.
  intros NN n Hn. unfold dbn in Hn. cbn [bnodes] in Hn. rewrite (objects_by w w' _ I SB notu notu_face) in Hn.
  apply in_map_iff in Hn as (p & <- & Hp). apply filter_In in Hp as [Hp U]. destruct (ext_entry p Hp) as (H & H' & _ & _ & _ & E).
  destruct (dget (fst p) ds) as [d|] eqn:D.
  - destruct (E d eq_refl) as (t & En & RT & ST & V). cbn [snapshot_node dn_cpd]. rewrite En. cbn [ncpd with_cpd].
    rewrite (data_aget _ RT). apply Forall_forall. intros x Hx. apply in_map_iff in Hx as (ix & <- & Hix). apply In_indices in Hix.
    assert (exists i js, ix = i :: js) as (i & js & ->).
    { destruct ix as [|i js]; [|do 2 eexists; reflexivity]. rewrite ST, (dshape w I _ _ _ H) in Hix.
      apply dget_In in D. destruct (proj2 L _ _ D) as (i & n & H2 & K & Id). assert (EE : n = old p) by (destruct H, H2; congruence). subst n.
      assert (NE : nvalues (old p) <> []) by (intros Z; rewrite Z in Id; destruct Id).
      rewrite (own_dims_values _ (or_intror K) NE) in Hix. inversion Hix. }
    rewrite V by exact Hix. destruct (Nat.eqb _ _); discriminate.
  - rewrite (snap_undecided p Hp D). apply NN. unfold open_nodes. apply filter_In. split.
    + unfold dbn. cbn [bnodes]. rewrite objects_old. apply (in_map (fun p => snapshot_node (dheap w) (old p))). apply filter_In. auto.
    + cbn [snapshot_node dn_name]. rewrite (dnamed w I _ _ _ H). apply dget_None in D. apply mem_nIn in D. rewrite D. reflexivity.
Qed.
End Ext.

(** Index forms. *)
Lemma plan_all_ix w U G a : dinv w -> dtidy w -> ext G -> (forall c, inrange (card (values_of (dbn w))) (bnames (dbn w)) c -> U (state_of (bvars (dbn w)) c) = G c) ->
  deps (bnames (dbn w)) G ->
  plan_sum w [] U = sum_over (card (values_of (dbn w))) (bnames (dbn w)) (fun c => ijoint w c * G c)%Qc a.
Proof.
  intros I T XG HU DG. unfold plan_sum. rewrite open_all.
  assert (DJ : deps (bnames (dbn w)) (ijoint w)).
  { unfold ijoint. apply (qprod_map_deps _ (fun n c => feval (from_node n) c)). intros n Hn b c E. apply feval_deps. intros v Hv.
    apply E. eapply (from_node_scope (dbn w) (dbn_wf w I T)); eassumption. }
  rewrite (mass_sum_gen (dbn w) (dbn_wf w I T) _ (fun c => ijoint w c * G c)%Qc [] []).
  - rewrite others_nil. apply (sum_over_deps _ (bnames (dbn w))); [|tauto]. intros b c E. rewrite (DJ b c E), (DG b c E). reflexivity.
  - apply is_inst_nil. - constructor. - intros v [].
  - intros c R. change (qprod (map (fun n => entry n (state_of (bvars (dbn w)) c)) (bnodes (dbn w)))) with (joint (dbn w) (state_of (bvars (dbn w)) c)).
    rewrite (joint_state w I T c R), (HU c R). reflexivity.
  - intros b c E. rewrite (deps_ext _ _ DJ b c E), (XG b c E). reflexivity.
Qed.

Lemma iutil_deps w : dinv w -> dtidy w -> deps (bnames (dbn w)) (iutil w).
Proof.
  intros I T a c E. unfold iutil. apply qsum_map_ext. intros n Hn. f_equal. apply map_ext_in. intros q Iq. apply E.
  apply filter_In in Hn as [Hn _]. apply in_map_iff in Hn as ((v & i) & En & Hp). cbn in En.
  apply In_dget in Hp; [|apply I]. destruct (di_named w I v i Hp) as (m & A & _). rewrite (deref_ok _ _ _ A) in En. subst m.
  apply (parent_dvals w I T v i n q (conj Hp A) Iq).
Qed.

Section EU.
Context {SO : SetOrder} {BO : BagOrder}.

Lemma current_utility w : dinv w -> dtidy w -> dlook w <> [] -> nonneg_bn (dbn w) -> plan_sum w [] (fun _ => 1%Qc) <> 0%Qc ->
  (let* fs := net_factors w in let* r := generalized_VE fs (chance_names w) in Ok (pot (snd r))) = Ok (scalar (plan_value w [])).
Proof.
  intros I T NL NN NZ. destruct (net_factors_ok w I T NN) as (js & E & W & C & NE & V). rewrite E. cbn [rbind].
  rewrite (chance_names_eq w I). destruct (some_range w I T) as (a0 & R0).
  assert (SP : forall a, inrange (card (values_of (dbn w))) (bnames (dbn w)) a ->
     sum_over (card (values_of (dbn w))) (bnames (dbn w)) (PP js) a = plan_sum w [] (fun _ => 1%Qc)).
  { intros a R. rewrite (plan_all_ix w _ (fun _ => 1%Qc) a I T); try (repeat intro; reflexivity).
    apply sum_over_ext_in. intros c Rc Ec. rewrite (proj1 (V c Rc)). ring. }
  assert (SU : forall a, inrange (card (values_of (dbn w))) (bnames (dbn w)) a ->
     sum_over (card (values_of (dbn w))) (bnames (dbn w)) (fun b => PP js b * UU js b)%Qc a = plan_sum w [] (utilities w)).
  { intros a R. rewrite (plan_all_ix w _ (iutil w) a I T (iutil_ext w) (utilities_state w I T) (iutil_deps w I T)).
    apply sum_over_ext_in. intros c Rc Ec. destruct (V c Rc) as [-> ->]. ring. }
  destruct (generalized_VE_spec (values_of (dbn w)) (bnames (dbn w)) js (bnames (dbn w))) as (r & Er & Wr & Or & Vr).
  - apply (dbn_wf w I T). - apply incl_refl. - exact W. - apply NE, NL. - apply C.
  - exists a0. split; [exact R0|]. rewrite (SP a0 R0). exact NZ.
  - rewrite Er. cbn [rbind]. f_equal. destruct (Vr a0 R0) as [V1 V2]. rewrite (SP a0 R0) in V1. rewrite (SU a0 R0), V1 in V2.
    assert (O : vorder (snd r) = []).
    { destruct (vorder (snd r)) as [|v l] eqn:Ev; [reflexivity|]. assert (Hv : In v (vorder (fst r))) by (apply (wj_scope _ _ _ Wr); rewrite Ev; left; reflexivity).
      apply Or in Hv as [Cv Nv]. exfalso. apply Nv, C, Cv. }
    assert (WU := wj_u _ _ _ Wr). rewrite (wfa_rank0 (pot (snd r))); [|apply WU|rewrite (wf_shape _ _ WU), O; reflexivity].
    unfold feval in V2. rewrite O in V2. cbn [map] in V2. f_equal. unfold plan_value. rewrite <- V2. field. exact NZ.
Qed.

Theorem expected_utility_ok w ds : dinv w -> dtidy w -> dlook w <> [] -> legal_decisions w ds ->
  nonneg_tables (open_nodes w ds) -> plan_sum w ds (fun _ => 1%Qc) <> 0%Qc ->
  exists w', expected_utility w ds = (w', Ok (scalar (plan_value w ds))) /\ dinv w' /\ extends w w' ds.
Proof.
  intros I T NL L NN NZ. destruct (decide_all_ok ds w I L) as (w' & E & I' & X). exists w'.
  unfold expected_utility. rewrite E. split; [|split; assumption]. f_equal.
  rewrite (current_utility w' I').
  - rewrite (value_decided w w' ds I I' X L T). reflexivity.
  - apply (ext_tidy w w' ds I X T).
  - rewrite (ex_look _ _ _ X). exact NL.
  - apply (nonneg_decided w w' ds I I' X L NN).
  - rewrite (plan_decided w w' ds I I' X L T). exact NZ.
Qed.
End EU.

(** Every decision taken. *)
Lemma open_chance w ds : dinv w -> all_decided w ds -> open_nodes w ds = dchance w.
Proof.
  intros I [L A]. unfold open_nodes, dchance, dbn. cbn [bnodes]. rewrite !objects_old, filter_map_comm. f_equal. rewrite filter_filter.
  apply filter_ext_in. intros (v & i) Hp. cbn [snd snapshot_node dn_name]. apply In_dget in Hp; [|apply I].
  destruct (di_named w I v i Hp) as (n & Hn & Nn & K). rewrite (deref_ok _ _ _ Hn), Nn. unfold is_utility, is_chance.
  destruct (nkind n) eqn:Kn; [contradiction| | |]; cbn.
  - destruct (mem v (dkeys ds)) eqn:M; [|reflexivity]. apply mem_In in M. apply in_map_iff in M as ((v' & d) & Ev & M). cbn in Ev. subst v'.
    destruct (proj2 L v d M) as (j & m & [Dm Hm] & Km & _). assert (m = n) by congruence. congruence.
  - reflexivity.
  - rewrite (proj2 (mem_In v (dkeys ds))); [reflexivity|]. apply (A v i n (conj Hp Hn) Kn).
Qed.

Lemma plan_chance w ds U : dinv w -> all_decided w ds -> plan_sum w ds U = chance_sum w ds U.
Proof. intros I A. unfold plan_sum, chance_sum. rewrite (open_chance w ds I A). reflexivity. Qed.

(** Acyclic networks with normalised tables. *)
Lemma legal_inst w ds : dinv w -> dtidy w -> legal_decisions w ds -> is_inst (dbn w) (dkeys ds) ds /\ incl (dkeys ds) (bnames (dbn w)).
Proof.
  intros I T [ND L]. split; [split; [exact ND|split; [tauto|]]|].
  - intros v x Hv. destruct (L v x Hv) as (i & n & H & K & Ix). rewrite (dbn_values w I T v i n H (or_intror K)). exact Ix.
  - intros v Hv. apply in_map_iff in Hv as ((u & x) & <- & Hu). destruct (L u x Hu) as (i & n & H & K & _). apply (dbn_name w I u i n H (or_intror K)).
Qed.

Lemma asg_all_range w a vs : dinv w -> dtidy w -> inrange (card (values_of (dbn w))) vs a ->
  exists a', inrange (card (values_of (dbn w))) (bnames (dbn w)) a' /\ forall v, In v vs -> a' v = a v.
Proof.
  intros I T R. destruct (some_range w I T) as (a0 & R0). exists (fun v => if mem v vs then a v else a0 v). split.
  - intros v Hv. destruct (mem v vs) eqn:M; [apply R, mem_In, M|apply R0, Hv].
  - intros v Hv. rewrite (proj2 (mem_In v vs) Hv). reflexivity.
Qed.

Theorem plan_one w ds order : dinv w -> dtidy w -> legal_decisions w ds -> stochastic_tables (open_nodes w ds) -> topological (dbn w) order ->
  plan_sum w ds (fun _ => 1%Qc) = 1%Qc.
Proof.
  intros I T L S TO. destruct (legal_inst w ds I T L) as [HI IV]. assert (WB := dbn_wf w I T).
  set (G := fun c => qprod (map (fun n => feval (from_node n) c) (open_nodes w ds))).
  assert (DG : deps (bnames (dbn w)) G).
  { apply (qprod_map_deps _ (fun n c => feval (from_node n) c)). intros n Hn b c E. apply feval_deps. intros v Hv.
    apply E. apply filter_In in Hn as [Hn _]. eapply (from_node_scope (dbn w) WB); eassumption. }
  unfold plan_sum. rewrite (mass_sum_gen (dbn w) WB _ G ds (dkeys ds) HI (proj1 L) IV).
  - destruct (asg_all_range w (asg_q (dbn w) ds) (dkeys ds) I T (asg_q_range (dbn w) _ _ HI)) as (a & R & Ea).
    rewrite (sum_over_deps _ (bnames (dbn w)) _ G DG _ a).
    + apply (total_one (dbn w) WB order TO (dkeys ds)); [|exact R]. intros n s Hn N. apply S. apply filter_In. split; [exact Hn|].
      apply mem_nIn in N. rewrite N. reflexivity.
    + intros v Hv NO. symmetry. apply Ea. destruct (In_dec_s v (dkeys ds)) as [Z|Z]; [exact Z|].
      exfalso. apply NO, others_In. auto.
  - intros c R. rewrite Qcmult_1_r. apply qprod_map_ext. intros n Hn. apply filter_In in Hn as [Hn _]. apply (entry_state (dbn w) WB); assumption.
  - eapply deps_ext, DG.
Qed.
