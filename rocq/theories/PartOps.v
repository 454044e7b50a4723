(** Messages, evidence and queries on one part of a join tree. *)
From Verif Require Import Base BaseFacts NDArray NDArrayFacts SumCalc Factor FactorFacts Exact Spec SpecFacts VEProof VEProof2
  Order OrderSpec OrderProof JoinTree HuginPure Hugin JTProof JTProof2 SepSpec SepRelevant PartSpec PartGraph PartTree.

Lemma dkeys_part {V} K (d : dict V) : dkeys (dpart K d) = filter K (dkeys d).
Proof. unfold dkeys, dpart. induction d as [|[k v] d IH]; cbn; [reflexivity|]. destruct (K k); cbn; [f_equal|]; exact IH. Qed.

Lemma part_length {V} K (d : dict V) : length (dpart K d) <= length d.
Proof. unfold dpart. induction d as [|x d IH]; cbn; [lia|]. destruct (K (fst x)); cbn; lia. Qed.

Section Ops.
Context {SO : SetOrder}.
Variable K : string -> bool.

Lemma calc_part t k rest : dkeys (tnodes t) = k :: rest -> K k = true -> tclosed K t ->
  snd (calculate_messages (tpart K t)) <> Err RecursionError ->
  calculate_messages (tpart K t) = (tpart K (fst (calculate_messages t)), snd (calculate_messages t)).
Proof.
  intros E Hk C N. unfold calculate_messages in *. cbn [tpart tnodes] in *. rewrite dkeys_part, E in *. cbn [filter] in *. rewrite Hk in *.
  fold (tpart K t) in *. set (n := Datatypes.S (length (dpart K (tnodes t)))) in *. set (m := Datatypes.S (length (tnodes t))) in *.
  assert (L : n <= m) by (unfold n, m; assert (X := part_length K (tnodes t)); lia).
  assert (P := pull_part K m k None t C Hk I). unfold mirrors in P.
  assert (P1 : pull m k None (tpart K t) = pull n k None (tpart K t)).
  { apply pull_more; [exact L|]. intros X. apply N. destruct (pull n k None (tpart K t)) as [t1 r]. cbn in X. subst r. reflexivity. }
  rewrite <- P1, P in *. clear P P1. assert (SK := skel_pull m k None t). destruct (pull m k None t) as [t1 [u|e]]; cbn [fst snd] in *.
  2: { destruct e; reflexivity. }
  assert (C1 : tclosed K t1) by (eapply tclosed_skel; [symmetry; exact SK|exact C]).
  assert (Q := push_part K m k None t1 C1 Hk). unfold mirrors in Q.
  assert (Q1 : push m k None (tpart K t1) = push n k None (tpart K t1)).
  { apply push_more; [exact L|]. intros X. apply N. destruct (push n k None (tpart K t1)) as [t2 r]. cbn in X. subst r. reflexivity. }
  rewrite <- Q1, Q in *. destruct (push m k None t1) as [t2 [u2|e]]; cbn [fst snd]; [reflexivity|]. destruct e; reflexivity.
Qed.

Lemma calc_frame t k rest : dkeys (tnodes t) = k :: rest -> K k = false -> tclosed K t ->
  tpart K (fst (calculate_messages t)) = set_valid (tvalid (fst (calculate_messages t))) (tpart K t).
Proof.
  assert (SV : forall t' t, tpart K t' = tpart K t -> tpart K t' = set_valid (tvalid t') (tpart K t)).
  { intros t' t0 E. rewrite <- E. reflexivity. }
  intros E Hk C. unfold calculate_messages. rewrite E. set (m := Datatypes.S (length (tnodes t))).
  assert (P := pull_frame K m k None t C Hk I). assert (SK := skel_pull m k None t). destruct (pull m k None t) as [t1 [u|e]]; cbn [fst snd] in *.
  2: { destruct e; apply SV, P. }
  assert (C1 : tclosed K t1) by (eapply tclosed_skel; [symmetry; exact SK|exact C]).
  assert (Q := push_frame K m k None t1 C1 Hk). destruct (push m k None t1) as [t2 [u2|e]]; cbn [fst snd] in *.
  - rewrite <- P, <- Q. reflexivity.
  - destruct e; apply SV; (etransitivity; [exact Q|exact P]).
Qed.

(** ** Loading tables *)
Variable P : string -> bool.
Notation here := (here P).
Notation uniform := (uniform P).

(** Cliques lie on one side, and their keys tell which. *)
Definition sided (l : dict clique) : Prop := forall k c, In (k, c) l -> uniform (cvars c) /\ K k = here (cvars c).

Lemma sided_map l l' : map (fun p : string * clique => (fst p, cvars (snd p))) l = map (fun p => (fst p, cvars (snd p))) l' -> sided l -> sided l'.
Proof.
  intros E H k c Hc. assert (X : In (k, cvars c) (map (fun p => (fst p, cvars (snd p))) l')) by (apply in_map_iff; exists (k, c); auto).
  rewrite <- E in X. apply in_map_iff in X as ([k1 c1] & X1 & X2). cbn in X1. injection X1 as X1 X3. subst k1. rewrite <- X3. apply H, X2.
Qed.

Lemma sided_skel t t' : skel t = skel t' -> sided (tnodes t) -> sided (tnodes t').
Proof. intros E. apply sided_map. exact (skel_vars _ _ E). Qed.

Lemma assign_at_shape F f l l' : assign_at F f l = Ok l' ->
  map (fun p : string * clique => (fst p, cvars (snd p))) l' = map (fun p => (fst p, cvars (snd p))) l.
Proof.
  revert l'. induction l as [|[k c] l IH]; intros l' E; cbn in *; [injection E as <-; reflexivity|]. destruct (F (cvars c)).
  - destruct (fmul (cfac c) f); [|discriminate]. injection E as <-. reflexivity.
  - destruct (assign_at F f l) as [r|]; [|discriminate]. injection E as <-. cbn. now rewrite (IH r).
Qed.

Lemma assign_at_part F f l l' : (forall k c, In (k, c) l -> F (cvars c) = true -> K k = true) -> assign_at F f l = Ok l' ->
  assign_at F f (dpart K l) = Ok (dpart K l').
Proof.
  revert l'. unfold dpart. induction l as [|[k c] l IH]; intros l' H E; cbn in *; [injection E as <-; reflexivity|].
  destruct (F (cvars c)) eqn:EF.
  - assert (Hk : K k = true) by (apply (H k c); auto). rewrite Hk. cbn. rewrite EF. destruct (fmul (cfac c) f); [|discriminate].
    cbn in *. injection E as <-. cbn. now rewrite Hk.
  - destruct (assign_at F f l) as [r|] eqn:Er; [|discriminate]. cbn in E. injection E as <-.
    assert (X := IH r (fun k c Hc => H k c (or_intror Hc)) eq_refl). cbn. destruct (K k); [|exact X]. cbn. rewrite EF, X. reflexivity.
Qed.

Lemma assign_at_frame F f l l' : (forall k c, In (k, c) l -> F (cvars c) = true -> K k = false) -> assign_at F f l = Ok l' ->
  dpart K l' = dpart K l.
Proof.
  revert l'. unfold dpart. induction l as [|[k c] l IH]; intros l' H E; cbn in *; [injection E as <-; reflexivity|].
  destruct (F (cvars c)) eqn:EF.
  - assert (Hk : K k = false) by (apply (H k c); auto). destruct (fmul (cfac c) f); [|discriminate].
    cbn in *. injection E as <-. cbn. now rewrite Hk.
  - destruct (assign_at F f l) as [r|] eqn:Er; [|discriminate]. cbn in E. injection E as <-. cbn.
    rewrite (IH r (fun k c Hc => H k c (or_intror Hc)) eq_refl). reflexivity.
Qed.
End Ops.

Section Net.
Context {SO : SetOrder}.
Variable b : bn.
Hypothesis WB : wf_bn b.
Variable S : list string.
Hypothesis AP : apart b S.
Variable K : string -> bool.
Notation P := (fun v => mem v S).
Notation r := (restrict b S).
Notation dom := (values_of b).
Notation sided := (sided K P).

Definition sound (l : dict clique) : Prop := forall k c, In (k, c) l -> wf_factor dom (cfac c).

Lemma assign_at_total F f l : wf_factor dom f -> sound l -> exists l', assign_at F f l = Ok l' /\ sound l'.
Proof.
  intros Wf. induction l as [|[k c] l IH]; intros H; cbn; [exists []; split; [reflexivity|intros ? ? []]|].
  destruct (F (cvars c)).
  - destruct (fcombine_spec dom Qcmult (cfac c) f (H k c (or_introl eq_refl)) Wf) as (h & Eh & Wh & _).
    unfold fmul. rewrite Eh. cbn. eexists. split; [reflexivity|]. intros k' c' [E|Hc]; [inversion E; subst; exact Wh|apply (H k' c'); now right].
  - destruct IH as (l' & E & H'); [intros k' c' Hc; apply (H k' c'); now right|]. rewrite E. cbn. eexists. split; [reflexivity|].
    intros k' c' [E'|Hc]; [inversion E'; subst; apply (H k' c'); now left|apply (H' k' c' Hc)].
Qed.

Lemma family_side n v : In n (bnodes b) -> In v (family n) -> P v = P (dn_name n).
Proof.
  intros Hn [<-|Hv]; [reflexivity|]. apply eq_true_iff_eq. rewrite !mem_In. symmetry. apply (AP n v Hn Hv).
Qed.

Lemma cover_side n k c l : In n (bnodes b) -> sided l -> In (k, c) l -> subset (dkeys (fvals (from_node n))) (cvars c) = true -> K k = P (dn_name n).
Proof.
  intros Hn SD Hc E. destruct (SD k c Hc) as (U & ->). rewrite (from_node_keys b WB n Hn) in E. apply subset_spec in E.
  symmetry. apply (uniform_here P); [exact U|]. apply E. left; reflexivity.
Qed.

Lemma load_part ns : (forall n, In n ns -> In n (bnodes b)) -> forall l, sided l -> sound l ->
  exists l', foldM (fun l f => assign_factor f l) (map from_node ns) l = Ok l' /\ sided l' /\ sound l' /\
    foldM (fun l f => assign_factor f l) (map from_node (filter (fun n => mem (dn_name n) S) ns)) (dpart K l) = Ok (dpart K l').
Proof.
  induction ns as [|n ns IH]; intros I l SD SN; cbn [map foldM filter].
  - exists l. auto.
  - assert (Hn : In n (bnodes b)) by (apply I; now left).
    destruct (assign_at_total (subset (dkeys (fvals (from_node n)))) (from_node n) l (wf_from_node b WB n Hn) SN) as (l1 & E1 & SN1).
    assert (SD1 : sided l1) by (eapply sided_map; [symmetry; eapply assign_at_shape, E1|exact SD]).
    destruct (IH (fun m Hm => I m (or_intror Hm)) l1 SD1 SN1) as (l2 & E2 & SD2 & SN2 & R2).
    exists l2. rewrite assign_factor_at, E1. cbn [rbind]. split; [exact E2|]. split; [exact SD2|]. split; [exact SN2|].
    destruct (mem (dn_name n) S) eqn:M.
    + cbn [map foldM]. rewrite assign_factor_at. rewrite (assign_at_part K _ _ l l1); [exact R2| |exact E1].
      intros k c Hc EF. rewrite (cover_side n k c l Hn SD Hc EF). exact M.
    + rewrite <- (assign_at_frame K (subset (dkeys (fvals (from_node n)))) (from_node n) l l1); [exact R2| |exact E1].
      intros k c Hc EF. rewrite (cover_side n k c l Hn SD Hc EF). exact M.
Qed.

Lemma clear_part t : clear_factors (tpart K t) = tpart K (clear_factors t).
Proof.
  unfold clear_factors, tpart; cbn [tnodes tadj tedges tvalid]. f_equal.
  - unfold dpart. induction (tnodes t) as [|[k c] l IH]; cbn; [reflexivity|]. destruct (K k); cbn; [f_equal|]; exact IH.
  - induction (tedges t) as [|[[u v] c] l IH]; cbn; [reflexivity|]. destruct (K u); cbn; [f_equal|]; exact IH.
Qed.

Lemma sound_clear t : sound (tnodes (clear_factors t)).
Proof.
  intros k c H. cbn [clear_factors tnodes] in H. apply in_map_iff in H as ([k' c'] & E & _). cbn in E. inversion E; subst. apply wf_trivial.
Qed.

Lemma sided_clear t : sided (tnodes t) -> sided (tnodes (clear_factors t)).
Proof. apply sided_map. cbn [clear_factors tnodes]. rewrite map_map. reflexivity. Qed.

Lemma factors_part t : sided (tnodes t) -> sound (tnodes t) ->
  exists t', assign_factors (map from_node (bnodes b)) t = Ok t' /\ sound (tnodes t') /\
    assign_factors (map from_node (bnodes r)) (tpart K t) = Ok (tpart K t').
Proof.
  intros SD SN. destruct (load_part (bnodes b) (fun n H => H) _ SD SN) as (l & E & SD' & SN' & R).
  unfold assign_factors. cbn [tpart tnodes tadj tedges tvalid restrict bnodes]. rewrite E, R. cbn [rbind].
  eexists. split; [reflexivity|]. split; [exact SN'|reflexivity].
Qed.

Lemma reset_part t : sided (tnodes t) ->
  exists t', reset_factors b t = (t', Ok tt) /\ sound (tnodes t') /\ skel t' = skel t /\ tvalid t' = false /\
    reset_factors r (tpart K t) = (tpart K t', Ok tt).
Proof.
  intros SD. destruct (factors_part (clear_factors t) (sided_clear t SD) (sound_clear t)) as (t' & E & SN & R).
  assert (X := skel_reset b t). unfold reset_factors in *. rewrite clear_part, R, E in *. cbn [fst] in X.
  eexists. split; [reflexivity|]. split; [exact SN|]. split; [exact X|]. split; reflexivity.
Qed.

(** ** Evidence *)
Lemma evidence_part ev l : ev_ok b ev -> incl l ev -> incl (dkeys l) (bnames b) -> forall t, sided (tnodes t) -> sound (tnodes t) ->
  exists t', each (add_tree_evidence b []) l t = (t', Ok tt) /\ skel t' = skel t /\ sound (tnodes t') /\
    each (add_tree_evidence r []) (ev_part S l) (tpart K t) = (tpart K t', Ok tt).
Proof.
  intros EV. induction l as [|[v e] l IH]; intros I KN t SD SN; cbn [each ev_part filter fst].
  - exists t. auto.
  - assert (Hv : In v (bnames b)) by (apply KN; now left). apply in_bnames in Hv as (n & Hn & <-).
    assert (Ee : dget (dn_name n) ev = Some e) by (apply In_dget; [apply EV|apply I; now left]).
    destruct (as_evidence_spec b WB ev EV n e Hn Ee) as (ef & E1 & We & _).
    destruct (assign_at_total (mem (dn_name n)) ef (tnodes t) We SN) as (l1 & E2 & SN1).
    assert (SK := skel_assign _ _ _ _ E2). set (t1 := mkT l1 (tadj t) (tedges t) (tvalid t)) in *.
    assert (SD1 : sided (tnodes t1)) by (eapply sided_skel; [symmetry; exact SK|exact SD]).
    destruct (IH (fun x Hx => I x (or_intror Hx)) (fun x Hx => KN x (or_intror Hx)) t1 SD1 SN1) as (t2 & E3 & S3 & SN3 & R3).
    exists t2. unfold add_tree_evidence at 1. cbn [fst snd dget]. rewrite (get_node_ok b WB n Hn). cbn [rbind]. rewrite E1. cbn [rbind].
    rewrite assign_evidence_at, E2. fold t1. split; [exact E3|]. split; [congruence|]. split; [exact SN3|].
    assert (SIDE : forall k c, In (k, c) (tnodes t) -> mem (dn_name n) (cvars c) = true -> K k = mem (dn_name n) S).
    { intros k c Hc M. destruct (SD k c Hc) as (U & ->). symmetry. apply (uniform_here P); [exact U|apply mem_In, M]. }
    destruct (mem (dn_name n) S) eqn:M.
    + cbn [each]. unfold add_tree_evidence at 1. cbn [fst snd dget].
      assert (Hr : In n (bnodes r)) by (cbn [restrict bnodes]; apply filter_In; auto).
      rewrite (get_node_ok r (r_wf b WB S (fun m p Hm Sm Hp => proj1 (AP m p Hm Hp) Sm)) n Hr). cbn [rbind]. rewrite E1. cbn [rbind].
      rewrite assign_evidence_at. cbn [tpart tnodes tadj tedges tvalid]. rewrite (assign_at_part K _ _ _ _ SIDE E2). exact R3.
    + replace (tpart K t) with (tpart K t1); [exact R3|]. unfold tpart, t1. cbn [tnodes tadj tedges tvalid].
      rewrite (assign_at_frame K _ _ _ _ SIDE E2). reflexivity.
Qed.

(** ** Queries *)
Definition rooted_at (t : jtree) : Prop := exists k rest, dkeys (tnodes t) = k :: rest /\ K k = true.

Lemma rooted_skel t t' : skel t = skel t' -> rooted_at t -> rooted_at t'.
Proof. intros E (k & rest & H & Hk). exists k, rest. split; [|exact Hk]. rewrite <- (skel_keys _ _ E). exact H. Qed.

Lemma calc_part' t : rooted_at t -> tclosed K t -> snd (calculate_messages (tpart K t)) <> Err RecursionError ->
  calculate_messages (tpart K t) = (tpart K (fst (calculate_messages t)), snd (calculate_messages t)).
Proof. intros (k & rest & E & Hk). apply (calc_part K t k rest E Hk). Qed.

Lemma find_query t Q : rooted_at t -> sided (tnodes t) -> incl Q S ->
  find (fun p => subset Q (cvars (snd p))) (dpart K (tnodes t)) = find (fun p => subset Q (cvars (snd p))) (tnodes t).
Proof.
  intros (k & rest & E & Hk) SD I. destruct Q as [|q Q].
  - destruct (tnodes t) as [|[k0 c0] l]; [discriminate|]. cbn in E. injection E as -> _. unfold dpart. cbn. rewrite Hk. reflexivity.
  - clear E. unfold dpart. induction (tnodes t) as [|[k0 c0] l IH]; [reflexivity|]. cbn [filter fst find snd].
    assert (IH' := IH (fun k c H => SD k c (or_intror H))). destruct (subset (q :: Q) (cvars c0)) eqn:EQ.
    + destruct (SD k0 c0 (or_introl eq_refl)) as (U & E). assert (X : K k0 = true).
      { rewrite E, <- (uniform_here P _ q U); [apply mem_In, I; now left|]. apply subset_spec in EQ. apply EQ. now left. }
      rewrite X. cbn [find snd]. rewrite EQ. reflexivity.
    + destruct (K k0); [|exact IH']. cbn [find snd]. rewrite EQ. exact IH'.
Qed.

Lemma query_part t Q : rooted_at t -> sided (tnodes t) -> tclosed K t -> incl Q S ->
  (tvalid t = false -> snd (calculate_messages (tpart K t)) <> Err RecursionError) ->
  tmarginals (tpart K t) Q = (tpart K (fst (tmarginals t Q)), snd (tmarginals t Q)).
Proof.
  intros RT SD C I N. unfold tmarginals. cbn [tpart tvalid]. fold (tpart K t). destruct (tvalid t) eqn:V.
  - cbn [fst snd]. cbn [tpart tnodes]. rewrite find_query by assumption. reflexivity.
  - rewrite calc_part' by auto. assert (SK := skel_calc t). destruct (calculate_messages t) as [t1 [u|e]]; cbn [fst snd] in *; [|reflexivity].
    cbn [tpart tnodes]. rewrite find_query; [reflexivity| |exact (sided_skel K P t t1 (eq_sym SK) SD)|exact I].
    exact (rooted_skel t t1 (eq_sym SK) RT).
Qed.

Lemma set_evidence_part ev t : ev_ok b ev -> incl (dkeys ev) (bnames b) -> rooted_at t -> sided (tnodes t) -> tclosed K t ->
  snd (set_evidence r (ev_part S ev) false (tpart K t)) = Ok tt ->
  exists t', set_evidence b ev false t = (t', Ok tt) /\ set_evidence r (ev_part S ev) false (tpart K t) = (tpart K t', Ok tt) /\ skel t' = skel t.
Proof.
  intros EV KN RT SD C H. destruct (reset_part t SD) as (t1 & E1 & SN1 & S1 & _ & R1).
  destruct (evidence_part ev ev EV (incl_refl _) KN t1 (sided_skel K P t t1 (eq_sym S1) SD) SN1) as (t2 & E2 & S2 & _ & R2).
  unfold set_evidence in *. rewrite E1, R1 in *. rewrite E2, R2 in *.
  assert (SS : skel t2 = skel t) by congruence.
  assert (X := calc_part' t2 (rooted_skel t t2 (eq_sym SS) RT) (tclosed_skel K t t2 (eq_sym SS) C)).
  rewrite X in * by (rewrite H; discriminate). assert (SK := skel_calc t2). destruct (calculate_messages t2) as [t3 e]. cbn [fst snd] in *. subst e.
  exists t3. split; [reflexivity|]. split; [reflexivity|congruence].
Qed.
End Net.
