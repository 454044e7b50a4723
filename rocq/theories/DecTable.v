(** Tables of decision and utility nodes, entry by entry. *)
From Verif Require Import Base BaseFacts NDArray NDArrayFacts SumCalc Factor FactorFacts FactorSpec Exact Spec SpecFacts Node Network NetSpec NetFacts NetInv
  NetView NetTable MCSpec Decision DecSpec DecInv DecVE DecView DecNorm DecFacts DecOpt.

(** States that give the node's parents, and the node itself if it has values,
    existing values. *)
Definition dlegal (w : dworld) (n : node) (st : dict string) : Prop :=
  (nkind n <> KUtility -> In (look st (nname n)) (nvalues n)) /\ forall q, In q (nporder n) -> In (look st q) (dvals w q).

Section Table.
Variable w : dworld.
Hypothesis I : dinv w.
Variables (v : string) (i : oid) (n : node).
Hypothesis H : dholds w v i n.

Lemma shown_entry st : entry (snapshot_node (dheap w) n) st =
  aget (tarr (ncpd n)) (idx (look st v) (nvalues n) :: map (fun q => idx (look st q) (dvals w q)) (nporder n)).
Proof.
  unfold entry. cbn [map]. rewrite (dshown w I v i n H), map_map. cbn [fst snd snapshot_node dn_cpd dn_name dn_values].
  rewrite (dnamed w I v i n H). reflexivity.
Qed.

Lemma shown_utility st : utility (snapshot_node (dheap w) n) st =
  aget (tarr (ncpd n)) (map (fun q => idx (look st q) (dvals w q)) (nporder n)).
Proof. unfold utility. rewrite (dshown w I v i n H), map_map. reflexivity. Qed.

Lemma legal_ix st : has_values n -> dlegal w n st ->
  inb (shape (tarr (ncpd n))) (idx (look st v) (nvalues n) :: map (fun q => idx (look st q) (dvals w q)) (nporder n)).
Proof.
  intros K [L1 L2]. assert (L := L1 (has_not_utility_kind n K)). rewrite (dnamed w I v i n H) in L.
  rewrite (dshape w I v i n H), (own_dims_values n K) by (intros Z; rewrite Z in L; destruct L).
  constructor; [apply idx_lt, L|]. apply inb_map. intros q Iq. apply idx_lt, L2, Iq.
Qed.

Lemma legal_ux st : nkind n = KUtility -> dlegal w n st ->
  inb (shape (tarr (ncpd n))) (map (fun q => idx (look st q) (dvals w q)) (nporder n)).
Proof.
  intros K [_ L2]. rewrite (dshape w I v i n H). unfold own_dims. rewrite K. cbn [app]. apply inb_map. intros q Iq. apply idx_lt, L2, Iq.
Qed.

(** get_utility. *)
Lemma get_utility_ok st int a : nkind n = KUtility -> ncpd n = TArr int a -> dlegal w n st -> (forall q, In q (nporder n) -> In q (dkeys st)) ->
  get_utility (dheap w) n st = Ok (utility (snapshot_node (dheap w) n) st).
Proof.
  intros K Ea L A. unfold get_utility. rewrite K, Ea.
  rewrite (mapM_total _ (fun q => idx (look st q) (dvals w q))).
  - cbn [rbind]. rewrite shown_utility, Ea. cbn [tarr]. assert (B := legal_ux st K L). rewrite Ea in B. cbn [tarr] in B.
    unfold aget_err. apply inbb_spec in B. rewrite B. reflexivity.
  - intros q Iq. assert (PV := dparent_values w I v i n q H Iq). unfold parent_values in PV. unfold parent_index.
    destruct (dget_err KeyError q (nparents n)) as [o|]; [|discriminate]. cbn [rbind] in *. destruct (hget (dheap w) o) as [m|]; [|discriminate]. cbn [rbind] in *.
    rewrite PV. cbn [rbind]. assert (X := proj2 L q Iq). unfold dget_err, look in *. destruct (dget_key q st (A q Iq)) as (y & E). rewrite E in *. cbn [rbind].
    apply py_index_ok, X.
Qed.

(** set_utility. *)
Lemma set_utility_ok u pv a : nkind n = KUtility -> ncpd n = TArr false a ->
  (forall q y, In q (nporder n) -> dget q pv = Some y -> In y (dvals w q)) ->
  exists b, set_utility (dheap w) n u pv = Ok (with_cpd n (TArr false b) (nvalid n)) /\ shape b = shape a /\ real_array b /\
    forall st, dlegal w n st -> aget b (map (fun q => idx (look st q) (dvals w q)) (nporder n)) =
      if matches pv st (nporder n) then u else aget a (map (fun q => idx (look st q) (dvals w q)) (nporder n)).
Proof.
  intros K Ea G. assert (PV := fun q Iq => dparent_values w I v i n q H Iq).
  set (s := map (selector (dvals w) pv) (nporder n)). assert (SH := dshape w I v i n H). rewrite Ea in SH. cbn [tarr] in SH. unfold own_dims in SH. rewrite K in SH. cbn [app] in SH.
  assert (SI : Forall2 sel_in s (shape a)) by (rewrite SH; apply (selectors_in n); [apply incl_refl|exact G]).
  eexists. split; [|split; [|split]].
  - unfold set_utility. rewrite K, (sels_ok (dheap w) n (dvals w) PV pv G). cbn [rbind]. unfold put. rewrite Ea. cbn [cast]. fold s.
    unfold assign. rewrite (sel_ok_in s _ SI). reflexivity.
  - reflexivity.
  - apply wfa_tabulate.
  - intros st L. assert (B := legal_ux st K L). rewrite Ea in B. cbn [tarr] in B. rewrite aget_tabulate by exact B. unfold s.
    rewrite (selectors_match n (dvals w) pv st (nporder n)); [reflexivity|apply incl_refl|exact G|apply L].
Qed.

Lemma set_utility_unknown u pv q y : nkind n = KUtility -> In q (nporder n) -> dget q pv = Some y -> ~ In y (dvals w q) ->
  set_utility (dheap w) n u pv = Err ValueError.
Proof.
  intros K Iq D N. assert (PV := fun q Iq => dparent_values w I v i n q H Iq). unfold set_utility. rewrite K.
  rewrite (sels_unknown (dheap w) n (dvals w) PV pv q y Iq D N). reflexivity.
Qed.

(** Rules. *)
Lemma unknown_decision d : nkind n = KDecision -> nvalues n <> [] -> ~ In d (nvalues n) ->
  exists t, set_decision n d = (with_cpd n t (nvalid n), Err ValueError) /\ real_array (tarr t) /\ shape (tarr t) = shape (tarr (ncpd n)) /\
    Forall (fun x => x = 0%Qc) (data (tarr t)).
Proof.
  intros K NE N. assert (RA := dk_arr _ _ (di_ok w I i n (proj2 H))). assert (SH := dshape w I v i n H).
  rewrite (own_dims_values n (or_intror K) NE) in SH. unfold set_decision. rewrite K. unfold own_index.
  destruct (nvalues n) as [|x l] eqn:EV; [contradiction|]. rewrite (py_index_err d _ N). cbn [rbind].
  destruct (ncpd n) as [y|int a] eqn:EC; [discriminate SH|]. eexists. split; [reflexivity|]. cbn [tarr]. split; [apply real_amap, RA|]. split; [reflexivity|].
  cbn. apply Forall_forall. intros z Hz. apply in_map_iff in Hz as (q & <- & _). reflexivity.
Qed.
End Table.

(** After a call that only changes the table of [i]. *)
Lemma deref_match h j : deref h j = match nth_error h j with Some n => n | None => new_node KBase "" [] end.
Proof. unfold deref. revert j; induction h as [|m h IH]; intros [|j]; cbn; auto. Qed.

Lemma call_vals w i n n' q : nth_error (dheap w) i = Some n -> face n' = face n -> dvals (mkDW (list_set i n' (dheap w)) (dlook w)) q = dvals w q.
Proof.
  intros Hn F. unfold dvals. cbn [dlook dheap]. destruct (dget q (dlook w)) as [j|]; [|reflexivity]. rewrite !deref_match, nth_error_list_set.
  destruct (Nat.eq_dec j i) as [->|_]; [|reflexivity]. rewrite Hn. unfold face in F. congruence.
Qed.

Lemma call_holds w v i n n' : dholds w v i n -> dholds (mkDW (list_set i n' (dheap w)) (dlook w)) v i n'.
Proof.
  intros [D Hn]. split; [exact D|]. cbn. rewrite nth_error_list_set, Hn. destruct (Nat.eq_dec i i); [reflexivity|contradiction].
Qed.

Theorem decide_rule w v i n d : dreached w -> dholds w v i n -> nkind n = KDecision -> In d (nvalues n) ->
  exists n', dexec w (DDecide i d) = (mkDW (list_set i n' (dheap w)) (dlook w), Ok tt) /\
    let w' := mkDW (list_set i n' (dheap w)) (dlook w) in dholds w' v i n' /\ face n' = face n /\ nporder n' = nporder n /\
    forall st, dlegal w n st -> entry (snapshot_node (dheap w') n') st = if String.eqb (look st v) d then 1%Qc else 0%Qc.
Proof.
  intros R H K Id. assert (I := dreached_inv w R).
  destruct (set_decision_ok (dheap w) n d (di_ok w I i n (proj2 H)) K Id) as (n' & E & DD). exists n'.
  assert (EX : dexec w (DDecide i d) = (mkDW (list_set i n' (dheap w)) (dlook w), Ok tt)) by (cbn [dexec]; unfold d_decide; rewrite (proj2 H), E; reflexivity).
  split; [exact EX|]. cbv zeta. destruct (decided_same _ _ _ DD) as (F & P & _). assert (H' := call_holds w v i n n' H). split; [exact H'|]. split; [exact F|]. split; [exact P|].
  assert (I' : dinv (mkDW (list_set i n' (dheap w)) (dlook w))).
  { apply dreached_inv. replace (mkDW (list_set i n' (dheap w)) (dlook w)) with (fst (dexec w (DDecide i d))) by (rewrite EX; reflexivity).
    apply dreached_call; [exact R|exact Logic.I]. }
  intros st L. rewrite (shown_entry _ I' v i n' H'). rewrite P.
  rewrite (map_ext (fun q => idx (look st q) (dvals (mkDW (list_set i n' (dheap w)) (dlook w)) q)) (fun q => idx (look st q) (dvals w q)))
    by (intros q; rewrite (call_vals w i n n' q (proj2 H) F); reflexivity).
  destruct DD as (t & -> & RT & ST & V). cbn [ncpd with_cpd nvalues]. rewrite V.
  - assert (Iv : In (look st v) (nvalues n)) by (rewrite <- (dnamed w I v i n H); apply (proj1 L); congruence).
    destruct (String.eqb_spec (look st v) d) as [->|N]; [rewrite Nat.eqb_refl; reflexivity|].
    destruct (Nat.eqb_spec (idx d (nvalues n)) (idx (look st v) (nvalues n))) as [E3|_]; [|reflexivity].
    apply idx_inj in E3; [congruence|exact Id|exact Iv].
  - rewrite ST. apply (legal_ix w I v i n H st (or_intror K) L).
Qed.

Theorem mixed_rule w v i n : dreached w -> dholds w v i n -> nkind n = KDecision -> nvalues n <> [] ->
  exists n', dexec w (DMixed i) = (mkDW (list_set i n' (dheap w)) (dlook w), Ok tt) /\
    let w' := mkDW (list_set i n' (dheap w)) (dlook w) in dholds w' v i n' /\ face n' = face n /\ nporder n' = nporder n /\
    forall st, dlegal w n st -> entry (snapshot_node (dheap w') n') st = (/ qnat (length (nvalues n)))%Qc.
Proof.
  intros R H K NE. assert (I := dreached_inv w R). destruct (fully_mixed_ok n K NE) as (n' & E & MM). exists n'.
  assert (EX : dexec w (DMixed i) = (mkDW (list_set i n' (dheap w)) (dlook w), Ok tt)) by (cbn [dexec]; unfold d_on_node; rewrite (proj2 H), E; reflexivity).
  split; [exact EX|]. cbv zeta. destruct (mixed_same _ _ MM) as (F & P). assert (H' := call_holds w v i n n' H). split; [exact H'|]. split; [exact F|]. split; [exact P|].
  assert (I' : dinv (mkDW (list_set i n' (dheap w)) (dlook w))).
  { apply dreached_inv. replace (mkDW (list_set i n' (dheap w)) (dlook w)) with (fst (dexec w (DMixed i))) by (rewrite EX; reflexivity).
    apply dreached_call; [exact R|exact Logic.I]. }
  intros st L. rewrite (shown_entry _ I' v i n' H'). rewrite P.
  rewrite (map_ext (fun q => idx (look st q) (dvals (mkDW (list_set i n' (dheap w)) (dlook w)) q)) (fun q => idx (look st q) (dvals w q)))
    by (intros q; rewrite (call_vals w i n n' q (proj2 H) F); reflexivity).
  destruct MM as (t & -> & RT & ST & V). cbn [ncpd with_cpd nvalues]. apply V. rewrite ST. apply (legal_ix w I v i n H st (or_intror K) L).
Qed.

Lemma Forall_nth_zero l k : Forall (fun x => x = 0%Qc) l -> nth k l 0%Qc = 0%Qc.
Proof. intros F. destruct (Nat.lt_ge_cases k (length l)) as [L|L]; [rewrite Forall_forall in F; apply F, nth_In, L|apply nth_overflow, L]. Qed.

Theorem unknown_zeroes w v i n d : dreached w -> dholds w v i n -> nkind n = KDecision -> nvalues n <> [] -> ~ In d (nvalues n) ->
  exists n', dexec w (DDecide i d) = (mkDW (list_set i n' (dheap w)) (dlook w), Err ValueError) /\
    let w' := mkDW (list_set i n' (dheap w)) (dlook w) in dholds w' v i n' /\
    forall st, entry (snapshot_node (dheap w') n') st = 0%Qc.
Proof.
  intros R H K NE N. assert (I := dreached_inv w R). destruct (unknown_decision w I v i n H d K NE N) as (t & E & RT & ST & Z). eexists.
  split; [cbn [dexec]; unfold d_decide; rewrite (proj2 H), E; reflexivity|]. cbv zeta. split; [apply (call_holds w v i n _ H)|].
  intros st. unfold entry. cbn [snapshot_node dn_cpd ncpd with_cpd]. apply Forall_nth_zero, Z.
Qed.

(** Utilities. *)
Theorem write_utility w v i n u pv a : dreached w -> dholds w v i n -> nkind n = KUtility -> ncpd n = TArr false a ->
  (forall q y, In q (nporder n) -> dget q pv = Some y -> In y (dvals w q)) ->
  exists n', dexec w (DUtility i u pv) = (mkDW (list_set i n' (dheap w)) (dlook w), Ok tt) /\
    let w' := mkDW (list_set i n' (dheap w)) (dlook w) in dholds w' v i n' /\
    forall st, dlegal w n st -> (forall q, In q (nporder n) -> In q (dkeys st)) ->
      utility (snapshot_node (dheap w') n') st = (if matches pv st (nporder n) then u else utility (snapshot_node (dheap w) n) st) /\
      get_utility (dheap w') n' st = Ok (utility (snapshot_node (dheap w') n') st).
Proof.
  intros R H K Ea G. assert (I := dreached_inv w R). destruct (set_utility_ok w I v i n H u pv a K Ea G) as (b & E & SB & RB & V).
  set (n' := with_cpd n (TArr false b) (nvalid n)) in *. exists n'.
  assert (EX : dexec w (DUtility i u pv) = (mkDW (list_set i n' (dheap w)) (dlook w), Ok tt)) by (cbn [dexec]; unfold d_on_node; rewrite (proj2 H), E; reflexivity).
  split; [exact EX|]. cbv zeta. assert (H' := call_holds w v i n n' H). split; [exact H'|].
  assert (I' : dinv (mkDW (list_set i n' (dheap w)) (dlook w))).
  { apply dreached_inv. replace (mkDW (list_set i n' (dheap w)) (dlook w)) with (fst (dexec w (DUtility i u pv))) by (rewrite EX; reflexivity).
    apply dreached_call; [exact R|exact Logic.I]. }
  set (w' := mkDW (list_set i n' (dheap w)) (dlook w)) in *.
  assert (VV : forall q, dvals w' q = dvals w q) by (intros q; apply (call_vals w i n n' q (proj2 H) eq_refl)).
  intros st L A. split.
  - rewrite (shown_utility w' I' v i n' H' st), (shown_utility w I v i n H st). change (nporder n') with (nporder n). cbn [n' ncpd with_cpd tarr].
    rewrite (map_ext (fun q => idx (look st q) (dvals w' q)) (fun q => idx (look st q) (dvals w q))) by (intros q; rewrite VV; reflexivity).
    rewrite (V st L), Ea. reflexivity.
  - apply (get_utility_ok w' I' v i n' H' st false b K eq_refl); [|exact A]. destruct L as [L1 L2]. split; [exact L1|].
    intros q Iq. rewrite VV. apply L2, Iq.
Qed.

Theorem write_utility_unknown w v i n u pv q y : dreached w -> dholds w v i n -> nkind n = KUtility -> In q (nporder n) ->
  dget q pv = Some y -> ~ In y (dvals w q) -> dexec w (DUtility i u pv) = (w, Err ValueError).
Proof.
  intros R H K Iq D N. assert (I := dreached_inv w R). cbn [dexec]. unfold d_on_node.
  rewrite (proj2 H), (set_utility_unknown w I v i n H u pv q y K Iq D N). destruct w; reflexivity.
Qed.

(** Factors. *)
Theorem utility_factor_reports w v i n : dreached w -> dholds w v i n -> nkind n = KUtility ->
  exists f, utility_factor (dheap w) n = Ok f /\ vorder f = nporder n /\
    forall st, dlegal w n st -> (forall q, In q (nporder n) -> In q (dkeys st)) -> (nporder n <> [] \/ exists int a, ncpd n = TArr int a) ->
      get_utility (dheap w) n st = Ok (potential_at f st).
Proof.
  intros R H K. assert (I := dreached_inv w R). rewrite (utility_factor_ok w I v i n H K). eexists. split; [reflexivity|]. split; [reflexivity|].
  intros st L A AR. assert (exists int a, ncpd n = TArr int a) as (int & a & Ea).
  { destruct AR as [NE|X]; [|exact X]. destruct (ncpd n) as [x|int a] eqn:EC; [|do 2 eexists; reflexivity].
    assert (SH := dshape w I v i n H). rewrite EC in SH. cbn in SH. unfold own_dims in SH. rewrite K in SH. destruct (nporder n); [contradiction|discriminate]. }
  rewrite (get_utility_ok w I v i n H st int a K Ea L A). f_equal. rewrite (shown_utility w I v i n H st). unfold potential_at. cbn [pot vorder fvals].
  f_equal. apply map_ext_in. intros q Iq. rewrite (dget_pairs (dvals w) _ q Iq). reflexivity.
Qed.

Theorem joint_factor_pairs w v i n : dreached w -> dtidy w -> dholds w v i n ->
  exists p u, joint_factor (dheap w) n = Ok (p, u) /\ vorder p = vorder u /\
    (nkind n = KUtility -> utility_factor (dheap w) n = Ok u /\ Forall (fun x => x = 1%Qc) (data (pot p))) /\
    (nkind n <> KUtility -> node_factor (dheap w) n = Ok p /\ p = from_node (snapshot_node (dheap w) n) /\ Forall (fun x => x = 0%Qc) (data (pot u))).
Proof.
  intros R T H. assert (I := dreached_inv w R).
  assert (CF : forall q f g, wf_factor (values_of (dbn w)) f -> const_factor q (vorder f) (fvals f) = Ok g -> Forall (fun x => x = q) (data (pot g)) /\ vorder g = vorder f).
  { intros q f g W E. unfold const_factor in E.
    rewrite (mapM_total _ (values_of (dbn w)) (vorder f)) in E by (intros u Hu; unfold dget_err; rewrite (wf_vals _ _ W u Hu); reflexivity).
    cbn [rbind] in E. injection E as <-. split; [|reflexivity]. cbn [pot]. unfold np_full. cbn [data tabulate].
    apply Forall_forall. intros z Hz. apply in_map_iff in Hz as (ix & <- & _). reflexivity. }
  destruct (is_utility n) eqn:U.
  - assert (K : nkind n = KUtility) by (unfold is_utility in U; destruct (nkind n); congruence).
    assert (W := wf_utility_factor w I T v i n H K). destruct (const_factor_ok _ 1%Qc _ W) as (p & Ep & Wp & Op & _).
    destruct (CF 1%Qc _ p W Ep) as [A B]. unfold joint_factor. rewrite K, (utility_factor_ok w I v i n H K). cbn [rbind]. unfold unit_factor. rewrite Ep. cbn [rbind].
    do 2 eexists. split; [reflexivity|]. split; [exact B|]. split; [intros _; split; [reflexivity|exact A]|]. intros X; congruence.
  - assert (K := chance_kind w I v i n H U). assert (KN := has_not_utility_kind n K).
    assert (Hn : In (snapshot_node (dheap w) n) (bnodes (dbn w))) by (apply (dobj_In w I); exists v, i, n; rewrite U; auto).
    assert (W := wf_from_node (dbn w) (dbn_wf w I T) _ Hn). destruct (const_factor_ok _ 0%Qc _ W) as (u & Eu & Wu & Ou & _).
    destruct (CF 0%Qc _ u W Eu) as [A B]. exists (from_node (snapshot_node (dheap w) n)), u. split.
    + unfold joint_factor. rewrite (node_factor_ok w I v i n H K). cbn [rbind]. unfold zero_factor. rewrite Eu. destruct (nkind n); try reflexivity. congruence.
    + split; [symmetry; exact B|]. split; [intros X; congruence|]. intros _. split; [apply (node_factor_ok w I v i n H K)|]. split; [reflexivity|exact A].
Qed.
