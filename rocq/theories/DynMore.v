(** Keyword arguments; the given network; transitions. *)
From Verif Require Import Base BaseFacts NDArray Factor Exact Spec Order JoinTree HuginPure Hugin JTProof Node Network NetSpec NetFacts NetView Dynamic DynSpec DynHeap DynState.

Section More.
Context {SO : SetOrder}.

(** ** soft_posteriors *)
Lemma hard_keyword s ev : hard_only (given ev) -> snd (set_evidence_ PriorFeedback s ev (Some true)) = Ok tt ->
  set_evidence_ PriorFeedback s ev None = set_evidence_ PriorFeedback s ev (Some true).
Proof.
  intros H. unfold set_evidence_.
  set (c := match mt s with 0 => new_tree s true | 1 => new_tree s false | _ => on_tree s reset_factors end). destruct c as [s1 [u|x]]; cbn [seq_calls]; [|discriminate].
  unfold on_tree. destruct (mtree s1) as [[first t]|]; [|discriminate]. cbn [fst snd]. intros O. rewrite (set_evidence_hard _ _ _ H O). reflexivity.
Qed.

(** set_evidence and then unroll, against unroll with the evidence. *)
Theorem keyword_alike m s ev kw kw' : snd (mexec m s (MUnroll (Some ev) kw)) = Ok tt ->
  plain m kw \/ m = PriorFeedback /\ hard_only ev ->
  snd (mexec m s (MEvidence (Some ev) kw')) = Ok tt /\
  mexec m (fst (mexec m s (MEvidence (Some ev) kw'))) (MUnroll None kw') = mexec m s (MUnroll (Some ev) kw).
Proof.
  intros O P.
  assert (S1 : snd (set_evidence_ m s (Some ev) kw) = Ok tt).
  { cbn [mexec] in O. unfold dunroll in O. rewrite orb_true_r in O. destruct (set_evidence_ m s (Some ev) kw) as [s1 [[]|x]]; [reflexivity|exact O]. }
  assert (E : set_evidence_ m s (Some ev) None = set_evidence_ m s (Some ev) kw).
  { destruct m, kw as [[]|]; try reflexivity.
    - destruct P as [P|[_ P]]; [destruct (P eq_refl)|]. apply hard_keyword; assumption.
    - destruct P as [P|[P _]]; discriminate.
    - destruct P as [P|[P _]]; discriminate. }
  assert (O1 : snd (mexec m s (MEvidence (Some ev) kw')) = Ok tt) by (rewrite dset_ok, E; exact S1). split; [exact O1|].
  destruct (evidence_unroll m s (Some ev) kw' kw' O1) as [U1 U2].
  assert (X : dunroll m s (Some (given (Some ev))) None = dunroll m s (Some ev) kw) by (unfold dunroll; cbn [given]; rewrite E; reflexivity).
  rewrite X in *. cbn [mexec] in *. apply U2. rewrite U1. exact O.
Qed.

(** ** The given network *)
Definition untouched (h : heap) (s : mstate) : Prop := exists rest, mheap s = h ++ rest.
(** No object of the given heap belongs to the network of [s]. *)
Definition apart (h : heap) (s : mstate) : Prop := forall v i, dget v (lookup (dtwo (mdbn s))) = Some i -> length h <= i.

Lemma list_set_app (h rest : heap) i n : length h <= i -> list_set i n (h ++ rest) = h ++ list_set (i - length h) n rest.
Proof.
  revert i. induction h as [|x h IH]; intros i L; cbn in *; [rewrite Nat.sub_0_r; reflexivity|].
  destruct i as [|i]; [lia|]. cbn. rewrite IH by lia. reflexivity.
Qed.

Lemma table_heap s v : mheap (fst (slice_table s v)) = mheap s /\ mdbn (fst (slice_table s v)) = mdbn s.
Proof. destruct (table_keep s v) as (A & B & _). auto. Qed.

Lemma feed_prior_untouched h s v p : untouched h s -> apart h s -> untouched h (fst (feed_prior s v p)).
Proof.
  intros (rest & E) A. unfold feed_prior. destruct (dget v _) as [i|] eqn:D; [|exists rest; exact E].
  destruct (table_heap s p) as [T1 T2]. destruct (slice_table s p) as [s1 [a|x]]; cbn [fst] in *; [|exists rest; congruence].
  destruct (nth_error (mheap s1) i) as [n|]; [|exists rest; cbn; congruence]. destruct (set_cpd n false a) as [n'|x]; [|exists rest; cbn; congruence].
  exists (list_set (i - length h) n' rest). cbn [fst mheap]. rewrite T1, E. apply list_set_app, (A v i D).
Qed.

Lemma feed_all_untouched h l s : untouched h s -> apart h s -> untouched h (fst (feed_all feed_prior l s)).
Proof.
  revert s. induction l as [|(v & p) l IH]; intros s U A; [exact U|]. cbn [feed_all]. assert (U1 := feed_prior_untouched h s v p U A). destruct (feed_prior_run s v p) as (_ & D & _).
  destruct (feed_prior s v p) as [s1 [u|x]]; cbn [seq_calls fst] in *; [|exact U1]. apply IH; [exact U1|]. unfold apart. rewrite D. exact A.
Qed.

Lemma feed_soft_heap l s : mheap (fst (feed_all feed_soft l s)) = mheap s.
Proof.
  revert s. induction l as [|(v & p) l IH]; intros s; [reflexivity|]. cbn [feed_all].
  assert (E : mheap (fst (feed_soft s v p)) = mheap s) by (destruct (table_heap s p) as [A _]; unfold feed_soft; destruct (slice_table s p) as [s1 [a|x]]; exact A).
  destruct (feed_soft s v p) as [s1 [u|x]]; cbn [seq_calls fst] in *; [rewrite IH|]; exact E.
Qed.

Lemma exec_dbn m s c : mdbn (fst (mexec m s c)) = mdbn s.
Proof.
  destruct c as [ev kw|ev kw|Q]; cbn [mexec].
  - unfold dset_evidence. destruct (set_evidence_keeps m s ev None) as (_ & A & _). destruct (set_evidence_ m s ev None) as [s1 [u|x]]; exact A.
  - unfold dunroll. assert (A : mdbn (fst (if negb (mflag s) || match ev with Some _ => true | None => false end then set_evidence_ m s ev kw else (s, Ok tt))) = mdbn s).
    { destruct (negb _ || _); [|reflexivity]. apply (set_evidence_keeps m s ev kw). }
    revert A. generalize (if negb (mflag s) || match ev with Some _ => true | None => false end then set_evidence_ m s ev kw else (s, Ok tt)). intros [s1 [u|x]] A; cbn [seq_calls fst snd] in *; [|exact A].
    destruct (unroll_run m s1) as (B & _). destruct (unroll_ m s1) as [s2 [u2|x]]; cbn [seq_calls fst with_flag mdbn] in *; congruence.
  - destruct (marginals_run s Q) as (_ & A & _). exact A.
Qed.

Lemma exec_heap m s c :
  match m with
  | SoftEvidence => mheap (fst (mexec m s c)) = mheap s
  | PriorFeedback => forall h, untouched h s -> apart h s -> untouched h (fst (mexec m s c))
  end.
Proof.
  assert (SE : forall ev kw, mheap (fst (if negb (mflag s) || match ev with Some _ => true | None => false end then set_evidence_ m s ev kw else (s, Ok tt))) = mheap s /\
     mdbn (fst (if negb (mflag s) || match ev with Some _ => true | None => false end then set_evidence_ m s ev kw else (s, Ok tt))) = mdbn s).
  { intros ev kw. destruct (negb _ || _); [|auto]. destruct (set_evidence_keeps m s ev kw) as (A & B & _). auto. }
  destruct c as [ev kw|ev kw|Q]; cbn [mexec].
  - assert (E : mheap (fst (dset_evidence m s ev kw)) = mheap s).
    { unfold dset_evidence. destruct (set_evidence_keeps m s ev None) as (A & _). destruct (set_evidence_ m s ev None) as [s1 [u|x]]; exact A. }
    destruct m; [|exact E]. intros h (rest & U) _. exists rest. congruence.
  - unfold dunroll. destruct (SE ev kw) as [A B]. revert A B. generalize (if negb (mflag s) || match ev with Some _ => true | None => false end then set_evidence_ m s ev kw else (s, Ok tt)).
    intros [s1 [u|x]] A B; cbn [seq_calls fst] in *.
    + destruct m.
      * intros h U AP. unfold unroll_. assert (U1 : untouched h s1) by (destruct U as (rest & U); exists rest; congruence). assert (A1 : apart h s1) by (unfold apart; rewrite B; exact AP).
        assert (X := feed_all_untouched h (dtrans (mdbn s1)) s1 U1 A1). destruct (feed_all feed_prior _ s1) as [s2 [u2|x]]; cbn [seq_calls fst] in *; exact X.
      * unfold unroll_. assert (X := feed_soft_heap (dtrans (mdbn s1)) (with_trans s1 [])). destruct (feed_all feed_soft _ _) as [s2 [u2|x]]; cbn [seq_calls fst with_flag tick mheap with_trans] in *; congruence.
    + destruct m; [|exact A]. intros h (rest & U) _. exists rest. congruence.
  - destruct (marginals_keep s Q) as (A & _). destruct m; [|exact A]. intros h (rest & U) _. exists rest. cbn [fst]. congruence.
Qed.

Lemma create_apart h d : untouched h (mcreate PriorFeedback h d) /\ apart h (mcreate PriorFeedback h d).
Proof.
  split; [exists (map (shift_node (length h)) h); reflexivity|]. intros v i. cbn. rewrite dget_shift. destruct (dget v _); [|discriminate]. cbn. intros E. injection E as <-. lia.
Qed.

Lemma run_untouched m h d cs : untouched h (mrun m (mcreate m h d) cs) /\ mdbn (mrun m (mcreate m h d) cs) = mdbn (mcreate m h d).
Proof.
  assert (G : forall s, match m with SoftEvidence => mheap s = h | PriorFeedback => untouched h s /\ apart h s end ->
     match m with SoftEvidence => mheap (mrun m s cs) = h | PriorFeedback => untouched h (mrun m s cs) end /\ mdbn (mrun m s cs) = mdbn s).
  { induction cs as [|c cs IH]; intros s H; cbn [mrun]; [destruct m; split; auto; apply H|].
    assert (X := exec_heap m s c). assert (D := exec_dbn m s c).
    destruct (IH (fst (mexec m s c))) as [I1 I2]; [|split; [exact I1|congruence]].
    destruct m; [|congruence]. destruct H as [U A]. split; [apply X; assumption|]. unfold apart. rewrite D. exact A. }
  destruct (G (mcreate m h d)) as [I1 I2]; [destruct m; [apply create_apart|reflexivity]|]. split; [|exact I2].
  destruct m; [exact I1|]. exists []. rewrite app_nil_r. exact I1.
Qed.

(** A network reads the same as long as its objects are untouched. *)
Lemma view_app h rest g : consistent (mkW h g) -> view (mkW (h ++ rest) g) = view (mkW h g).
Proof.
  intros C. unfold view. cbn [whp wnet]. f_equal. apply map_ext_in. intros (v & i) I. cbn [snd].
  assert (D : dget v (lookup g) = Some i) by (apply In_dget; [apply C|exact I]).
  destruct (co_named _ C v i D) as (n & Hn & En). cbn [whp] in Hn. rewrite (deref_ok h i n Hn).
  rewrite (deref_ok (h ++ rest) i n) by (rewrite nth_error_app1; [exact Hn|]; apply nth_error_Some; congruence).
  unfold snapshot_node. f_equal. apply map_ext. intros p. f_equal. unfold parent_values. unfold dget_err. destruct (dget p (nparents n)) as [o|] eqn:Dp; [|reflexivity].
  cbn. unfold hget. assert (X := proj1 (co_pdict _ C v i n p o (conj D Hn)) Dp). destruct X as [_ X]. destruct (co_named _ C p o X) as (q & Hq & _). cbn [whp] in Hq.
  rewrite nth_error_app1 by (apply nth_error_Some; congruence). reflexivity.
Qed.

Theorem network_kept m h d cs : let s := mrun m (mcreate m h d) cs in
  (forall i, i < length h -> nth_error (mheap s) i = nth_error h i) /\
  (consistent (mkW h (db0 d)) -> view (mkW (mheap s) (db0 d)) = view (mkW h (db0 d))) /\
  (consistent (mkW h (dtwo d)) -> view (mkW (mheap s) (dtwo d)) = view (mkW h (dtwo d))).
Proof.
  intros s. destruct (run_untouched m h d cs) as [(rest & E) _]. fold s in E. rewrite E. split; [|split; intros C; apply view_app, C].
  intros i L. apply nth_error_app1, L.
Qed.

(** ** Transitions *)
Lemma in_net_names h g v : consistent (mkW h g) -> (in_net v g = true <-> In v (bnames (view (mkW h g)))).
Proof.
  intros C. rewrite (view_names _ C). cbn [wnet]. unfold in_net, dmem. split.
  - destruct (dget v (ggraph g)) as [i|] eqn:D; [|discriminate]. intros _. apply (co_same _ C) in D. exact (dget_Some_key _ _ _ D).
  - intros I. assert (X : exists i, dget v (lookup g) = Some i).
    { destruct (dget v (lookup g)) as [i|] eqn:D; [eauto|]. destruct (proj1 (dget_None _ _) D I). }
    destruct X as (i & D). apply (co_same _ C) in D. cbn [wnet] in D. rewrite D. reflexivity.
Qed.

Theorem transition_added h d v p : consistent (mkW h (db0 d)) -> consistent (mkW h (dtwo d)) ->
  let ok := In p (bnames (view (mkW h (db0 d)))) /\ In p (bnames (view (mkW h (dtwo d)))) /\ In v (bnames (view (mkW h (dtwo d)))) in
  (ok -> add_transition d v p = (mkDbn (db0 d) (dtwo d) (dtrans d ++ [(v, p)]), Ok tt)) /\
  (~ ok -> exists e, add_transition d v p = (d, Err e) /\
     (e = StructureError \/ e = KeyError /\ In p (bnames (view (mkW h (db0 d)))) /\ ~ In p (bnames (view (mkW h (dtwo d)))))).
Proof.
  intros C0 C1 ok. assert (N0 := in_net_names h (db0 d) p C0). assert (N1 := in_net_names h (dtwo d) p C1). assert (N2 := in_net_names h (dtwo d) v C1). unfold add_transition.
  destruct (in_net p (db0 d)) eqn:E0; cbn [negb]; [|split; [intros (H & _); apply N0 in H; discriminate|eauto]].
  destruct (in_net p (dtwo d)) eqn:E1; cbn [negb].
  - destruct (in_net v (dtwo d)) eqn:E2; cbn [negb]; split; eauto.
    + intros N. destruct N. split; [apply N0; reflexivity|]. split; [apply N1|apply N2]; reflexivity.
    + intros (_ & _ & H). apply N2 in H. discriminate.
  - split; [intros (_ & H & _); apply N1 in H; discriminate|]. intros _. exists KeyError. split; [reflexivity|]. right. split; [reflexivity|]. split; [apply N0; reflexivity|].
    intros H. apply N1 in H. discriminate.
Qed.

(** Several transitions: all those before the first refused one are added. *)
Theorem transitions_added h d l : consistent (mkW h (db0 d)) -> consistent (mkW h (dtwo d)) ->
  let ok := fun t : string * string => In (snd t) (bnames (view (mkW h (db0 d)))) /\ In (snd t) (bnames (view (mkW h (dtwo d)))) /\ In (fst t) (bnames (view (mkW h (dtwo d)))) in
  exists pre, fst (add_transitions d l) = mkDbn (db0 d) (dtwo d) (dtrans d ++ pre) /\ Forall ok pre /\
    (snd (add_transitions d l) = Ok tt /\ pre = l \/
     exists t post e, l = pre ++ t :: post /\ ~ ok t /\ snd (add_transitions d l) = Err e).
Proof.
  intros C0 C1 ok. remember (db0 d) as g0 eqn:G0. remember (dtwo d) as g1 eqn:G1. revert d G0 G1. induction l as [|(v & p) l IH]; intros d G0 G1.
  - exists []. cbn. rewrite app_nil_r. split; [subst; destruct d; reflexivity|]. auto.
  - cbn [add_transitions]. assert (T := transition_added h d v p). rewrite <- G0, <- G1 in T. destruct (T C0 C1) as [T1 T2]. clear T.
    assert (X : {ok (v, p)} + {~ ok (v, p)}).
    { unfold ok. cbn. destruct (In_dec_s p (bnames (view (mkW h g0)))); [|right; tauto]. destruct (In_dec_s p (bnames (view (mkW h g1)))); [|right; tauto].
      destruct (In_dec_s v (bnames (view (mkW h g1)))); [left; tauto|right; tauto]. }
    destruct X as [X|X].
    + rewrite (T1 X). destruct (IH (mkDbn g0 g1 (dtrans d ++ [(v, p)])) eq_refl eq_refl) as (pre & E & F & R). exists ((v, p) :: pre). cbn [dtrans] in E. rewrite E.
      split; [rewrite <- app_assoc; reflexivity|]. split; [constructor; assumption|]. destruct R as [[R1 R2]|(t & post & e & R1 & R2 & R3)].
      * left. split; [exact R1|]. congruence.
      * right. exists t, post, e. split; [rewrite R1; reflexivity|]. auto.
    + destruct (T2 X) as (e & E & _). exists []. rewrite E. cbn. split; [rewrite app_nil_r; subst; destruct d; reflexivity|]. split; [constructor|]. right. exists (v, p), l, e. auto.
Qed.

Theorem dbn_made h b0 two l : consistent (mkW h b0) -> consistent (mkW h two) ->
  let ok := fun t : string * string => In (snd t) (bnames (view (mkW h b0))) /\ In (snd t) (bnames (view (mkW h two))) /\ In (fst t) (bnames (view (mkW h two))) in
  (Forall ok l -> new_dbn b0 two l = Ok (mkDbn b0 two l)) /\ (~ Forall ok l -> exists e, new_dbn b0 two l = Err e).
Proof.
  intros C0 C1 ok. destruct (transitions_added h (mkDbn b0 two []) l C0 C1) as (pre & E & F & R). cbn [db0 dtwo dtrans app] in *. fold ok in F, R.
  unfold new_dbn. destruct (add_transitions (mkDbn b0 two []) l) as [d r]. cbn [fst snd] in *. subst d. destruct R as [[-> ->]|(t & post & e & -> & N & ->)].
  - split; [reflexivity|]. intros X. contradiction.
  - split; [|eauto]. intros X. exfalso. apply N. apply Forall_app in X as [_ X]. inversion X; assumption.
Qed.
End More.
