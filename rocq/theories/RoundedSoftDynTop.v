(** SoftEvidenceExact in rounded arithmetic: all sessions. *)
From Verif Require Import Base BaseFacts NDArray NDArrayFacts Factor FactorFacts Exact Spec SpecFacts Order OrderSpec JoinTree TreeSpec JTBuild JTProof JTProof2 JTTop JTJunction JTHistory
  Node Network NetSpec NetFacts NetView Dynamic DynSpec DynPure DynHeap DynPrior DynSoft Rounded RoundedSpec RoundedProof RoundedTables RoundedTop RoundedTree RoundedTreeSpec RoundedTreeProof RoundedTreeTop
  RoundedDyn RoundedDynSpec RoundedDynPure RoundedDynProof RoundedSoft RoundedSoftSpec RoundedSoftProof RoundedSoftTop RoundedSoftDyn RoundedSoftDynSpec RoundedSoftDynPure RoundedSoftDynProof.

(** With the exact operations the program is that of Dynamic.v. *)
Theorem soft_dyn_by_exact {SO : SetOrder} s ev kw Q :
  let create := create_jointree_by fmul in
  let desired := set_posteriors_by fmul marginalize1 finvert normalize (soft_ratio_by Qcdiv Qcmult) in let query := tmarginals_by fmul marginalize1 finvert normalize in
  ssset_evidence_by create desired s ev = dset_evidence SoftEvidence s ev kw /\
  ssunroll_by create desired query s ev = dunroll SoftEvidence s ev None /\
  dmarginals_by query s Q = dmarginals s Q.
Proof.
  intros create desired query. destruct tree_by_exact as (T1 & T2 & T3 & T4 & T5). fold create in T1. fold query in T5.
  assert (T6 : forall b ev t, desired b ev t = set_evidence b ev true t) by exact posteriors_by_exact.
  assert (E1 : forall s first, new_tree_by create s first = new_tree s first) by (intros s' first; unfold new_tree_by, new_tree; rewrite T1; reflexivity).
  assert (E2 : forall s, soft_evidence_by create desired s ev = set_evidence_ SoftEvidence s ev None).
  { intros s'. unfold soft_evidence_by, set_evidence_. rewrite !E1.
    destruct (match mt s' with 0 => _ | _ => _ end) as [s1 [u|e]]; [|reflexivity]. cbn [seq_calls]. unfold on_tree. destruct (mtree s1) as [[f t]|]; [rewrite T6|]; reflexivity. }
  assert (E3 : forall s Q, dmarginals_by query s Q = dmarginals s Q) by (intros s' Q'; unfold dmarginals_by, dmarginals, on_tree; destruct (mtree s') as [[f t]|]; [rewrite T5|]; reflexivity).
  split; [unfold ssset_evidence_by, dset_evidence; rewrite E2; reflexivity|]. split; [|apply E3].
  unfold ssunroll_by, dunroll. rewrite E2. destruct (if negb (mflag s) || _ then _ else _) as [s1 [u|e]]; [|reflexivity]. cbn [seq_calls].
  replace (soft_unroll_by query s1) with (unroll_ SoftEvidence s1); [reflexivity|]. unfold soft_unroll_by, unroll_. f_equal.
  assert (E4 : forall s v p, feed_soft s v p = feed_soft_by query s v p).
  { intros s' v p. unfold feed_soft, feed_soft_by, slice_table, slice_table_by. rewrite E3. reflexivity. }
  generalize (dtrans (mdbn s1)) (with_trans s1 []). intros l. induction l as [|(v & p) l IH]; intros s2; [reflexivity|]. cbn [feed_all]. rewrite E4. destruct (feed_soft_by query s2 v p) as [s3 [u3|e]]; [apply IH|reflexivity].
Qed.

Section Soft.
Context {RD : Rounding} {AD : Adding} {SO : SetOrder}.
Variable h : heap.
Variable d : dbnet.
Notation b0 := (view (mkW h (db0 d))).
Notation two := (view (mkW h (dtwo d))).
Notation trans := (dtrans d).
Notation sb := (slice_bn b0 two trans).
Notation ok := (soft_ok b0 two trans).
Notation base evs := (slice_base b0 two (length evs)).
Hypothesis TR : trackable b0 two trans.
Variable j : nat.
Hypothesis OP : own_priors j two trans.
Let WI : wired b0 two trans := tr_wired _ _ _ TR.
Notation sknows := (sknows h d j).
Notation tables_ok := (tables_ok h d j).

(** The invariant. *)
Record sssame (s : mstate) (done : list evidence) : Prop := {
  x_t : mt s = length done;
  x_heap : mheap s = h;
  x_dbn : mdbn s = d;
  x_trans : match done with [] => mtrans s = [] | _ => exists T, tables_ok done T /\ mtrans s = map (fun vp => (fst vp, T vp)) trans end;
  x_legal : soft_legal h d done;
  x_tree : 2 <= length done -> shas_tree s false two
}.
Record ssinv (s : mstate) (done : list evidence) (p : waiting) (sh : option (list evidence)) : Prop := {
  xi_same : sssame s done;
  xi_flag : mflag s = match p with Nothing => false | _ => true end;
  xi_pending : forall e, p = Pending e -> sh = Some (e :: done);
  xi_shown : match sh with
             | None => True
             | Some [] => False
             | Some (e :: evs) => ok evs e /\ soft_legal h d evs /\ (evs = done \/ done = e :: evs) /\ sknows s evs e
             end
}.

Lemma ss_net s done : sssame s done -> slice_net s (is_nil done) = base done.
Proof. intros P. unfold slice_net. rewrite (x_heap _ _ P), (x_dbn _ _ P). destruct done; reflexivity. Qed.
Lemma sssame_rest s s' done : sssame s done -> same_rest s s' -> (2 <= length done -> shas_tree s' false two) -> sssame s' done.
Proof. intros [] (E1 & E2 & E3 & E4 & E5) T. constructor; try congruence; try assumption. rewrite E5. assumption. Qed.
Lemma sssame_flag s done x : sssame s done -> sssame (with_flag s x) done.
Proof. intros []. constructor; assumption. Qed.
Lemma sssame_evidence s s' done : sssame s done -> same_rest s s' -> shas_tree s' (is_nil done) (base done) -> sssame s' done.
Proof. intros P R T. apply (sssame_rest s s' done P R). intros L. destruct done; [cbn in L; lia|exact T]. Qed.
Lemma sknows_flag s x evs e : sknows s evs e -> sknows (with_flag s x) evs e.
Proof. intros (T & t0 & b' & t & X). exists T, t0, b', t. exact X. Qed.

Lemma ss_prepare s done : sssame s done ->
  exists s', match mt s with 0 => new_tree_by rounded_jointree s true | 1 => new_tree_by rounded_jointree s false | _ => (s, Ok tt) end = (s', Ok tt) /\
    shas_tree s' (is_nil done) (base done) /\ same_rest s s'.
Proof.
  intros P. assert (N := ss_net s done P). rewrite (x_t _ _ P). destruct done as [|e [|e' done]]; cbn [length] in *.
  - exact (screated_has h d TR s [] N).
  - exact (screated_has h d TR s [e] N).
  - exists s. split; [reflexivity|]. split; [apply (x_tree _ _ P); cbn; lia|apply same_rest_refl].
Qed.

(** The demands. *)
Lemma ss_asked s done e : sssame s done -> ok done e -> exists T, tables_ok done T /\
  match mt s with 0 => e | _ => dupdate e (map (fun p => (fst p, Soft (data (snd p)))) (mtrans s)) end = asked d done T e.
Proof.
  intros P O. rewrite (x_t _ _ P). assert (X := x_trans _ _ P). destruct done as [|e' done]; [exists (fun _ => mkArr [] []); split; [exact I|reflexivity]|].
  destruct X as (T & HT & ->). exists T. split; [exact HT|]. cbn [length asked]. rewrite map_map. cbn [fst snd]. fold (softs d T).
  apply update_app; rewrite keys_of_softs; [apply WI|]. intros v H1 H2. exact (so_off _ _ _ _ _ O ltac:(discriminate) v H2 H1).
Qed.

Lemma ss_evidence s done ev : sssame s done -> ok done (given ev) ->
  exists s', rsoft_evidence s ev = (s', Ok tt) /\ sknows s' done (given ev) /\ same_rest s s'.
Proof.
  intros P O. destruct (ss_prepare s done P) as (s1 & E1 & K1 & R1). destruct (ss_asked s done (given ev) P O) as (T & HT & EA). unfold rsoft_evidence, soft_evidence_by. rewrite E1. cbn [seq_calls]. rewrite EA.
  destruct (sset_knows h d TR j s1 done (given ev) T K1 HT O (x_legal _ _ P)) as (s2 & E2 & K2 & R2); [rewrite (slice_net_same _ _ _ R1); apply ss_net, P|].
  exists s2. split; [exact E2|]. split; [exact K2|]. exact (same_rest_trans _ _ _ R1 R2).
Qed.

Lemma ss_any s done ev : sssame s done ->
  shas_tree (fst (rsoft_evidence s ev)) (is_nil done) (base done) /\ same_rest s (fst (rsoft_evidence s ev)).
Proof.
  intros P. destruct (ss_prepare s done P) as (s1 & E1 & K1 & R1). unfold rsoft_evidence, soft_evidence_by. rewrite E1. cbn [seq_calls].
  match goal with |- context [on_tree s1 (fun b t => rounded_posteriors b ?E t)] => destruct (sany_has s1 (is_nil done) (base done) E K1) as [H R] end.
  split; [exact H|]. exact (same_rest_trans _ _ _ R1 R).
Qed.

Lemma ss_feed_all done e l : incl l trans -> NoDup (map fst l) -> ok done e -> soft_legal h d done -> forall s,
  sknows s done e -> (forall v, In v (map fst l) -> ~ In v (dkeys (mtrans s))) ->
  exists s' T, feed_all (feed_soft_by rounded_tree) l s = (s', Ok tt) /\ sknows s' done e /\ (forall vp, In vp l -> soft_table h d j done e vp (T vp)) /\
    mheap s' = mheap s /\ mdbn s' = mdbn s /\ mt s' = mt s /\ mflag s' = mflag s /\
    mtrans s' = mtrans s ++ map (fun vp => (fst vp, T vp)) l.
Proof.
  intros I ND O L. induction l as [|(v & p) l IH]; intros s K D.
  { exists s, (fun _ => mkArr [] []). cbn. rewrite app_nil_r. split; [reflexivity|]. split; [exact K|]. split; [intros vp []|]. auto 10. }
  cbn [map fst] in ND. inversion ND as [|? ? Nv ND']; subst x l0.
  destruct (sknows_table h d TR j OP s done e v p K O L (I _ (or_introl eq_refl))) as (a & E1 & HT).
  cbn [feed_all]. unfold feed_soft_by at 1. rewrite E1. cbn [seq_calls].
  assert (Ds : dset v a (mtrans s) = mtrans s ++ [(v, a)]) by (apply dset_app, D; left; reflexivity).
  destruct (IH (fun x Hx => I x (or_intror Hx)) ND' (with_trans s (dset v a (mtrans s)))) as (s2 & T & E2 & K2 & HT2 & B1 & B2 & B3 & B4 & B5).
  - destruct K as (T & t0 & b' & t & X). exists T, t0, b', t. exact X.
  - intros u Hu Hd. cbn [with_trans mtrans] in Hd. rewrite Ds in Hd. unfold dkeys in Hd. rewrite map_app in Hd. apply in_app_or in Hd as [Hd|[Hd|[]]].
    + exact (D u (or_intror Hu) Hd). + cbn in Hd. subst. contradiction.
  - exists s2, (fun vp => if String.eqb (fst vp) v then a else T vp). split; [exact E2|]. split; [exact K2|]. split.
    { intros (v' & p') [H|H]; [injection H as <- <-; cbn [fst]; rewrite String.eqb_refl; exact HT|]. cbn [fst]. rewrite eqb_neq_s; [apply HT2, H|]. intros ->. apply Nv, in_map_iff. exists (v, p'). auto. }
    cbn [with_trans mheap mdbn mt mflag mtrans] in *. rewrite Ds in B5. repeat (split; [congruence|]). rewrite B5, <- app_assoc. cbn [map app fst]. rewrite String.eqb_refl. do 2 f_equal.
    apply map_ext_in. intros (v' & p') H. cbn [fst]. rewrite eqb_neq_s; [reflexivity|]. intros ->. apply Nv, in_map_iff. exists (v, p'). auto.
Qed.

Lemma ss_unroll s done e : sssame s done -> ok done e -> sknows s done e ->
  exists s', soft_unroll_by rounded_tree s = (s', Ok tt) /\ sssame s' (e :: done) /\ sknows s' done e /\ mflag s' = mflag s.
Proof.
  intros P O K. unfold soft_unroll_by. rewrite (x_dbn _ _ P).
  destruct (ss_feed_all done e trans (incl_refl _) (wi_nodup _ _ _ WI) O (x_legal _ _ P) (with_trans s [])) as (s1 & T & E1 & K1 & HT & A1 & A2 & A3 & A4 & A5).
  { destruct K as (T & t0 & b' & t & X). exists T, t0, b', t. exact X. } { cbn. auto. }
  rewrite E1. cbn [seq_calls]. exists (tick s1). cbn [with_trans mheap mdbn mt mflag mtrans] in *. split; [reflexivity|].
  assert (KT : sknows (tick s1) done e) by exact K1.
  split; [|auto]. constructor; cbn [tick mt mheap mdbn mtrans].
  - rewrite A3, (x_t _ _ P). reflexivity.
  - rewrite A1. apply P.
  - rewrite A2. apply P.
  - exists T. split; [exact HT|]. rewrite A5. reflexivity.
  - split; [exact O|apply P].
  - intros L. destruct done as [|e' done]; [cbn in L; lia|]. exact (sknows_has h d j _ _ _ KT).
Qed.

Lemma ss_failed s done p sh ev s' : ssinv s done p sh -> s' = fst (rsoft_evidence s ev) -> ssinv s' done (spoil p) None.
Proof.
  intros V ->. assert (P := xi_same _ _ _ _ V). destruct (ss_any s done ev P) as [T R]. constructor.
  - exact (sssame_evidence _ _ _ P R T).
  - destruct R as (_ & _ & _ & -> & _). rewrite (xi_flag _ _ _ _ V). destruct p; reflexivity.
  - destruct p; discriminate.
  - exact I.
Qed.

Theorem soft_rounded_sessions s done p sh : ssession ok h d s done p sh -> ssinv s done p sh.
Proof.
  induction 1 as [|s done p sh ev S IH F|s done p sh ev S IH W F|s done e sh S IH|s done p sh Q S IH|s done p sh ev x S IH E|s done p sh ev x S IH W E].
  - constructor; [|reflexivity|discriminate|exact I]. constructor; cbn; auto. lia.
  - assert (P := xi_same _ _ _ _ IH). destruct (ss_evidence s done ev P F) as (s1 & E1 & K1 & R1).
    unfold rsset_evidence, ssset_evidence_by. fold rsoft_evidence. rewrite E1. cbn [seq_calls fst]. constructor.
    + apply sssame_flag, (sssame_evidence s); [exact P|exact R1|]. exact (sknows_has h d j _ _ _ K1).
    + reflexivity.
    + intros e E. injection E as <-. reflexivity.
    + split; [exact F|]. split; [apply P|]. split; [left; reflexivity|]. apply sknows_flag, K1.
  - assert (P := xi_same _ _ _ _ IH). destruct (ss_evidence s done ev P F) as (s1 & E1 & K1 & R1).
    unfold rsunroll, ssunroll_by. fold rsoft_evidence. replace (negb (mflag s) || match ev with Some _ => true | None => false end) with true.
    2: { rewrite (xi_flag _ _ _ _ IH). destruct W as [->|W]; [reflexivity|]. destruct ev; [|congruence]. destruct p; reflexivity. }
    rewrite E1. cbn [seq_calls]. assert (P1 : sssame s1 done) by (apply (sssame_evidence s); [exact P|exact R1|exact (sknows_has h d j _ _ _ K1)]).
    destruct (ss_unroll s1 done (given ev) P1 F K1) as (s2 & E2 & P2 & K2 & F2). rewrite E2. cbn [seq_calls fst]. constructor.
    + apply sssame_flag, P2.
    + reflexivity.
    + discriminate.
    + split; [exact F|]. split; [apply P1|]. split; [right; reflexivity|]. apply sknows_flag, K2.
  - assert (P := xi_same _ _ _ _ IH). unfold rsunroll, ssunroll_by. rewrite (xi_flag _ _ _ _ IH). cbn [negb orb seq_calls].
    assert (SH := xi_pending _ _ _ _ IH e eq_refl). subst sh. destruct (xi_shown _ _ _ _ IH) as (F & L & _ & K).
    destruct (ss_unroll s done e P F K) as (s2 & E2 & P2 & K2 & F2). rewrite E2. cbn [seq_calls fst]. constructor.
    + apply sssame_flag, P2.
    + reflexivity.
    + discriminate.
    + split; [exact F|]. split; [exact L|]. split; [right; reflexivity|]. apply sknows_flag, K2.
  - assert (P := xi_same _ _ _ _ IH). assert (R := squery_rest s Q). constructor.
    + apply (sssame_rest s); [exact P|exact R|]. intros L. apply squery_has, P, L.
    + destruct R as (_ & _ & _ & -> & _). apply IH.
    + apply IH.
    + assert (X := xi_shown _ _ _ _ IH). destruct sh as [[|e evs]|]; [exact X| |exact X]. destruct X as (X1 & X2 & X3 & X4). repeat (split; [assumption|]).
      rewrite (squery_knows h d TR j s evs e Q X4 X1 X2). exact X4.
  - apply (ss_failed s done p sh ev); [exact IH|]. unfold rsset_evidence, ssset_evidence_by in *. fold rsoft_evidence in *. destruct (rsoft_evidence s ev) as [s1 [u|y]]; [discriminate|reflexivity].
  - apply (ss_failed s done p sh ev); [exact IH|]. unfold rsunroll, ssunroll_by. fold rsoft_evidence. replace (negb (mflag s) || match ev with Some _ => true | None => false end) with true.
    2: { rewrite (xi_flag _ _ _ _ IH). destruct W as [->|W]; [reflexivity|]. destruct ev; [|congruence]. destruct p; reflexivity. }
    destruct (rsoft_evidence s ev) as [s1 [u|y]]; [discriminate|reflexivity].
Qed.

(** Evidence for which the method works is accepted, and unroll succeeds. *)
Theorem soft_rounded_succeeds s done p sh ev : ssession ok h d s done p sh -> ok done (given ev) ->
  snd (rsset_evidence s ev) = Ok tt /\ (p <> Spoiled \/ ev <> None -> snd (rsunroll s ev) = Ok tt).
Proof.
  intros S F. assert (IH := soft_rounded_sessions _ _ _ _ S). assert (P := xi_same _ _ _ _ IH). destruct (ss_evidence s done ev P F) as (s1 & E1 & K1 & R1). split.
  - unfold rsset_evidence, ssset_evidence_by. fold rsoft_evidence. rewrite E1. reflexivity.
  - intros W. unfold rsunroll, ssunroll_by. fold rsoft_evidence. destruct (negb (mflag s) || match ev with Some _ => true | None => false end) eqn:G.
    + rewrite E1. cbn [seq_calls]. assert (P1 : sssame s1 done) by (apply (sssame_evidence s); [exact P|exact R1|exact (sknows_has h d j _ _ _ K1)]).
      destruct (ss_unroll s1 done (given ev) P1 F K1) as (s2 & E2 & _). rewrite E2. reflexivity.
    + apply orb_false_iff in G as [G1 G2]. rewrite (xi_flag _ _ _ _ IH) in G1. destruct p as [|e|]; [discriminate| |destruct W as [W|W]; [congruence|destruct ev; [discriminate|congruence]]]. cbn [seq_calls].
      assert (SH := xi_pending _ _ _ _ IH e eq_refl). subst sh. destruct (xi_shown _ _ _ _ IH) as (F' & L & _ & K).
      destruct (ss_unroll s done e P F' K) as (s2 & E2 & _). rewrite E2. reflexivity.
Qed.

(** The answers, and the time. *)
Theorem soft_rounded_answers s done p e evs n Q : ssession ok h d s done p (Some (e :: evs)) ->
  In n (bnodes (base evs)) -> NoDup Q -> incl Q (dn_name n :: map fst (dn_parents n)) ->
  exists f, rsmarginals s Q = (s, Ok f) /\ reports (base evs) f Q (potential_at f) /\
    forall q, is_inst (base evs) Q q -> close (soft_errors b0 two trans j evs Q e) (posterior (sb evs) e q) (potential_at f q).
Proof.
  intros S Hn ND I. destruct (xi_shown _ _ _ _ (soft_rounded_sessions _ _ _ _ S)) as (O & L & _ & K).
  destruct (sknows_answer h d TR j s evs e n Q K O L Hn ND I) as (T & ev' & f & HT & ME & Ef & R & C). exists f. split; [exact Ef|]. split; [exact R|].
  intros q Hq. destruct (asked_mass h d TR j OP evs T e ev' O L HT ME) as (B & MN & _ & PE). unfold soft_errors. eapply close_trans; [apply posterior_close, MN|]. rewrite <- PE. apply C, Hq.
Qed.

Theorem soft_rounded_time s done p sh : ssession ok h d s done p sh -> mt s = length done.
Proof. intros S. apply (xi_same _ _ _ _ (soft_rounded_sessions _ _ _ _ S)). Qed.
End Soft.
