(** The state machine of the inference objects, for arbitrary networks and
    histories; what they do to the given network; transitions. *)
From Verif Require Import Base BaseFacts NDArray Factor Exact Spec Order JoinTree HuginPure Hugin JTProof Node Network NetSpec NetFacts NetView Dynamic DynSpec DynHeap.

Section State.
Context {SO : SetOrder}.

(** ** Trees are determined by their shape once evidence is set *)
Lemma reset_by_shape b t t' : skel t = skel t' ->
  snd (reset_factors b t) = snd (reset_factors b t') /\
  (snd (reset_factors b t) = Ok tt -> fst (reset_factors b t) = fst (reset_factors b t')).
Proof.
  intros E. unfold skel, set_valid, clear_factors in E. injection E as E1 E2 E3. unfold reset_factors, assign_factors, clear_factors. cbn [tnodes tadj tedges tvalid].
  rewrite E1, E2, E3. destruct (foldM _ _ _) as [ns|x]; cbn [rbind fst snd]; split; auto. discriminate.
Qed.

Lemma set_evidence_by_shape b ev soft t t' : skel t = skel t' ->
  snd (set_evidence b ev soft t) = snd (set_evidence b ev soft t') /\
  (snd (set_evidence b ev soft t) = Ok tt -> fst (set_evidence b ev soft t) = fst (set_evidence b ev soft t')).
Proof.
  intros E. destruct (reset_by_shape b t t' E) as [R1 R2]. unfold set_evidence.
  destruct (reset_factors b t) as [t1 [u|x]], (reset_factors b t') as [t1' [u'|x']]; cbn [fst snd] in *; try discriminate.
  - destruct u. rewrite (R2 eq_refl). auto.
  - split; [exact R1|discriminate].
Qed.

(** Hard evidence means the same with and without [softPosteriors]. *)
Lemma each_hard b d d' ev t : hard_only ev -> JoinTree.each (add_tree_evidence b d) ev t = JoinTree.each (add_tree_evidence b d') ev t.
Proof.
  revert t. induction ev as [|(v & e) ev IH]; intros t H; [reflexivity|]. cbn [JoinTree.each].
  destruct (H v e (or_introl eq_refl)) as (x & ->). 
  assert (E : add_tree_evidence b d (v, Hard x) t = add_tree_evidence b d' (v, Hard x) t) by reflexivity.
  rewrite E. destruct (add_tree_evidence b d' (v, Hard x) t) as [t1 [u|y]]; [|reflexivity]. apply IH. intros w y I. apply (H w y). right. exact I.
Qed.

Lemma set_evidence_hard b ev t : hard_only ev -> snd (set_evidence b ev true t) = Ok tt ->
  set_evidence b ev false t = set_evidence b ev true t.
Proof.
  intros H. unfold set_evidence. assert (S1 := skel_reset b t). destruct (reset_by_shape b (fst (reset_factors b t)) t S1) as [R1 R2].
  destruct (reset_factors b t) as [t1 [u|x]] eqn:E1; cbn [fst snd] in *; [|discriminate].
  assert (S2 := skel_calc t1). destruct (calculate_messages t1) as [t2 [u2|x]]; cbn [fst] in S2; [|discriminate].
  assert (S3 := skel_old (dkeys ev) t2). destruct (old_marginals (dkeys ev) t2) as [t3 [dd|x]]; cbn [fst] in S3; [|discriminate].
  destruct (reset_by_shape b t3 t) as [R3 R4]; [congruence|]. rewrite E1 in R3, R4. cbn [fst snd] in R3, R4.
  destruct (reset_factors b t3) as [t4 [u4|x]]; cbn [fst snd] in *; [|discriminate]. destruct u, u4. rewrite (R4 eq_refl). rewrite (each_hard b dd [] ev t1 H). reflexivity.
Qed.

(** ** Inference objects up to what set_evidence overwrites *)
Definition tree_shape (x : option (bool * jtree)) : option (bool * jtree) := option_map (fun p => (fst p, skel (snd p))) x.
Definition alike (s s' : mstate) : Prop :=
  mheap s' = mheap s /\ mdbn s' = mdbn s /\ mt s' = mt s /\ mtrans s' = mtrans s /\ (2 <= mt s -> tree_shape (mtree s') = tree_shape (mtree s)).

Lemma new_tree_alike s s' first : mheap s' = mheap s -> mdbn s' = mdbn s -> mt s' = mt s -> mtrans s' = mtrans s ->
  snd (new_tree s' first) = snd (new_tree s first) /\
  (snd (new_tree s first) = Ok tt -> with_flag (fst (new_tree s' first)) false = with_flag (fst (new_tree s first)) false).
Proof.
  intros E1 E2 E3 E4. unfold new_tree. assert (E : slice_net s' first = slice_net s first) by (unfold slice_net; rewrite E1, E2; reflexivity). rewrite E.
  destruct (create_jointree _ _) as [t|x]; cbn [fst snd]; split; try reflexivity; [|discriminate]. intros _. unfold with_flag, with_tree. cbn. rewrite E1, E2, E3, E4. reflexivity.
Qed.

Lemma upto_flag s s' : with_flag s' false = with_flag s false -> mheap s' = mheap s /\ mdbn s' = mdbn s /\ mt s' = mt s /\ mtrans s' = mtrans s /\ mtree s' = mtree s.
Proof. unfold with_flag. intros E. injection E as -> -> -> -> ->. auto. Qed.

Lemma on_tree_upto {A} s s' (f : bn -> jtree -> jtree * res A) : with_flag s' false = with_flag s false ->
  snd (on_tree s' f) = snd (on_tree s f) /\ with_flag (fst (on_tree s' f)) false = with_flag (fst (on_tree s f)) false.
Proof.
  intros E. destruct (upto_flag s s' E) as (E1 & E2 & E3 & E4 & E5). unfold on_tree. rewrite E5. destruct (mtree s) as [[first t]|]; [|auto].
  assert (EN : slice_net s' first = slice_net s first) by (unfold slice_net; rewrite E1, E2; reflexivity). rewrite EN.
  cbn [fst snd]. split; [reflexivity|]. unfold with_flag, with_tree. cbn. rewrite E1, E2, E3, E4. reflexivity.
Qed.

Lemma on_tree_alike s s' (f : bn -> jtree -> jtree * res unit) : alike s s' -> 2 <= mt s ->
  (forall b t t', skel t = skel t' -> snd (f b t) = snd (f b t') /\ (snd (f b t) = Ok tt -> fst (f b t) = fst (f b t'))) ->
  snd (on_tree s' f) = snd (on_tree s f) /\ (snd (on_tree s f) = Ok tt -> with_flag (fst (on_tree s' f)) false = with_flag (fst (on_tree s f)) false).
Proof.
  intros (E1 & E2 & E3 & E4 & E5) L H. specialize (E5 L). unfold on_tree. destruct (mtree s) as [[first t]|], (mtree s') as [[first' t']|]; cbn in E5; try discriminate; [|split; [reflexivity|discriminate]].
  assert (E6 : first' = first) by (injection E5; auto). assert (ES : skel t' = skel t) by (apply (f_equal (fun o => match o with Some p => snd p | None => skel t end)) in E5; exact E5). subst first'.
  assert (EN : slice_net s' first = slice_net s first) by (unfold slice_net; rewrite E1, E2; reflexivity). rewrite EN.
  destruct (H (slice_net s first) t t' (eq_sym ES)) as [H1 H2]. cbn [fst snd]. split; [auto|]. intros O. unfold with_flag, with_tree. cbn. rewrite E1, E2, E3, E4, (H2 O). reflexivity.
Qed.

Lemma set_evidence_alike m s s' ev kw : alike s s' ->
  snd (set_evidence_ m s' ev kw) = snd (set_evidence_ m s ev kw) /\
  (snd (set_evidence_ m s ev kw) = Ok tt -> with_flag (fst (set_evidence_ m s' ev kw)) false = with_flag (fst (set_evidence_ m s ev kw)) false).
Proof.
  intros A. assert (A' := A). destruct A as (E1 & E2 & E3 & E4 & E5). unfold set_evidence_.
  assert (STEP : forall e soft c c', snd c' = snd c -> (snd c = Ok tt -> with_flag (fst c') false = with_flag (fst c) false) ->
    snd (seq_calls c' (fun s => on_tree s (fun b t => set_evidence b e soft t))) = snd (seq_calls c (fun s => on_tree s (fun b t => set_evidence b e soft t))) /\
    (snd (seq_calls c (fun s => on_tree s (fun b t => set_evidence b e soft t))) = Ok tt ->
     with_flag (fst (seq_calls c' (fun s => on_tree s (fun b t => set_evidence b e soft t)))) false = with_flag (fst (seq_calls c (fun s => on_tree s (fun b t => set_evidence b e soft t)))) false)).
  { intros e soft [c [u|x]] [c' [u'|x']] H1 H2; cbn [fst snd seq_calls] in *; try discriminate; [|split; [exact H1|discriminate]].
    destruct u. destruct (on_tree_upto c c' (fun b t => set_evidence b e soft t) (H2 eq_refl)) as [X Y]. auto. }
  destruct m.
  - apply STEP.
    + rewrite E3. destruct (mt s) as [|[|n]] eqn:T; [apply new_tree_alike; congruence|apply new_tree_alike; congruence|].
      apply (on_tree_alike s s' reset_factors A'); [rewrite T; lia|]. intros b t t'. apply reset_by_shape.
    + rewrite E3. destruct (mt s) as [|[|n]] eqn:T; [apply new_tree_alike; congruence|apply new_tree_alike; congruence|].
      apply (on_tree_alike s s' reset_factors A'); [rewrite T; lia|]. intros b t t'. apply reset_by_shape.
  - destruct kw; [split; [reflexivity|discriminate]|]. rewrite E3, E4. destruct (mt s) as [|[|n]] eqn:T.
    + apply STEP; apply new_tree_alike; congruence.
    + apply STEP; apply new_tree_alike; congruence.
    + cbn [seq_calls]. apply (on_tree_alike s s'); [exact A'|rewrite T; lia|]. intros b t t'. apply set_evidence_by_shape.
Qed.

Lemma alike_on_tree {A} s (f : bn -> jtree -> jtree * res A) : (forall b t, skel (fst (f b t)) = skel t) -> alike s (fst (on_tree s f)).
Proof.
  intros H. unfold on_tree. destruct (mtree s) as [[first t]|] eqn:E; [|repeat split]. cbn [fst].
  unfold with_tree. do 4 (split; [reflexivity|]). intros _. rewrite E. unfold tree_shape. cbn [mtree option_map fst snd]. rewrite H. reflexivity.
Qed.

Lemma alike_trans s1 s2 s3 : alike s1 s2 -> alike s2 s3 -> alike s1 s3.
Proof. intros (A1 & A2 & A3 & A4 & A5) (B1 & B2 & B3 & B4 & B5). repeat (split; [congruence|]). intros L. rewrite B5 by lia. apply A5, L. Qed.

Lemma new_tree_keeps s first : mt s < 2 -> alike s (fst (new_tree s first)).
Proof. intros L. unfold new_tree. destruct (create_jointree _ _); cbn [fst]; repeat split; cbn; lia. Qed.

(** set_evidence changes the tree's numbers only. *)
Lemma set_evidence_keeps m s ev kw : alike s (fst (set_evidence_ m s ev kw)).
Proof.
  unfold set_evidence_. assert (SE : forall e soft s, alike s (fst (on_tree s (fun b t => set_evidence b e soft t)))) by (intros e soft s1; apply alike_on_tree; intros b t; apply skel_set_evidence).
  assert (STEP : forall e soft c, alike s (fst c) -> alike s (fst (seq_calls c (fun s => on_tree s (fun b t => set_evidence b e soft t))))).
  { intros e soft [c [u|x]] H; cbn [seq_calls fst] in *; [|exact H]. eapply alike_trans; [exact H|apply SE]. }
  destruct m.
  - apply STEP. destruct (mt s) as [|[|n]] eqn:T; [apply new_tree_keeps; lia|apply new_tree_keeps; lia|]. apply alike_on_tree. intros b t. apply skel_reset.
  - destruct kw; [repeat split|]. apply STEP. destruct (mt s) as [|[|n]] eqn:T; [apply new_tree_keeps; lia|apply new_tree_keeps; lia|repeat split].
Qed.

Lemma set_evidence_flag m s ev kw : mflag (fst (set_evidence_ m s ev kw)) = mflag s.
Proof.
  assert (ON : forall (f : bn -> jtree -> jtree * res unit) s, mflag (fst (on_tree s f)) = mflag s) by (intros f s1; unfold on_tree; destruct (mtree s1) as [[first t]|]; reflexivity).
  assert (NT : forall s first, mflag (fst (new_tree s first)) = mflag s) by (intros s1 first; unfold new_tree; destruct (create_jointree _ _); reflexivity).
  assert (STEP : forall f c, mflag (fst c) = mflag s -> mflag (fst (seq_calls c (fun s => on_tree s f))) = mflag s).
  { intros f [c [u|x]] H; cbn [seq_calls fst] in *; [rewrite ON|]; exact H. }
  unfold set_evidence_. destruct m.
  - apply STEP. destruct (mt s) as [|[|n]]; [apply NT|apply NT|apply ON].
  - destruct kw; [reflexivity|]. apply STEP. destruct (mt s) as [|[|n]]; [apply NT|apply NT|reflexivity].
Qed.

(** ** Unrolling does not look at the flag *)
Lemma marginals_upto s s' Q : with_flag s' false = with_flag s false ->
  snd (dmarginals s' Q) = snd (dmarginals s Q) /\ with_flag (fst (dmarginals s' Q)) false = with_flag (fst (dmarginals s Q)) false.
Proof. apply on_tree_upto. Qed.

Lemma table_upto s s' v : with_flag s' false = with_flag s false ->
  snd (slice_table s' v) = snd (slice_table s v) /\ with_flag (fst (slice_table s' v)) false = with_flag (fst (slice_table s v)) false.
Proof.
  intros E. destruct (marginals_upto s s' [v] E) as [M1 M2]. unfold slice_table.
  destruct (dmarginals s [v]) as [s1 [f|x]], (dmarginals s' [v]) as [s1' [f'|x']]; cbn [fst snd] in *; try discriminate; [|injection M1 as ->; auto].
  injection M1 as ->. auto.
Qed.

Lemma feed_prior_upto s s' v p : with_flag s' false = with_flag s false ->
  snd (feed_prior s' v p) = snd (feed_prior s v p) /\ with_flag (fst (feed_prior s' v p)) false = with_flag (fst (feed_prior s v p)) false.
Proof.
  intros E. destruct (upto_flag s s' E) as (E1 & E2 & _). unfold feed_prior. rewrite E2. destruct (dget v _) as [i|]; [|auto].
  destruct (table_upto s s' p E) as [M1 M2]. destruct (slice_table s p) as [s1 [a|x]], (slice_table s' p) as [s1' [a'|x']]; cbn [fst snd] in *; try discriminate; [|injection M1 as ->; auto].
  injection M1 as ->. destruct (upto_flag s1 s1' M2) as (F1 & F2 & F3 & F4 & F5). rewrite F1. destruct (nth_error (mheap s1) i) as [n|]; [|auto].
  destruct (set_cpd n false a) as [n'|x]; [|auto]. cbn [fst snd]. split; [reflexivity|]. unfold with_flag. cbn. rewrite F2, F3, F4, F5. reflexivity.
Qed.

Lemma feed_soft_upto s s' v p : with_flag s' false = with_flag s false ->
  snd (feed_soft s' v p) = snd (feed_soft s v p) /\ with_flag (fst (feed_soft s' v p)) false = with_flag (fst (feed_soft s v p)) false.
Proof.
  intros E. unfold feed_soft. destruct (table_upto s s' p E) as [M1 M2]. destruct (slice_table s p) as [s1 [a|x]], (slice_table s' p) as [s1' [a'|x']]; cbn [fst snd] in *; try discriminate; [|injection M1 as ->; auto].
  injection M1 as ->. destruct (upto_flag s1 s1' M2) as (F1 & F2 & F3 & F4 & F5). split; [reflexivity|]. unfold with_flag, with_trans. cbn. rewrite F1, F2, F3, F4, F5. reflexivity.
Qed.

Lemma feed_all_upto f l : (forall s s' v p, with_flag s' false = with_flag s false -> snd (f s' v p) = snd (f s v p) /\ with_flag (fst (f s' v p)) false = with_flag (fst (f s v p)) false) ->
  forall s s', with_flag s' false = with_flag s false -> snd (feed_all f l s') = snd (feed_all f l s) /\ with_flag (fst (feed_all f l s')) false = with_flag (fst (feed_all f l s)) false.
Proof.
  intros H. induction l as [|(v & p) l IH]; intros s s' E; [auto|]. cbn [feed_all]. destruct (H s s' v p E) as [H1 H2].
  destruct (f s v p) as [s1 [u|x]], (f s' v p) as [s1' [u'|x']]; cbn [fst snd seq_calls] in *; try discriminate; [|auto]. apply IH, H2.
Qed.

Lemma tick_upto s s' : with_flag s' false = with_flag s false -> with_flag (tick s') false = with_flag (tick s) false.
Proof. intros E. destruct (upto_flag s s' E) as (F1 & F2 & F3 & F4 & F5). unfold with_flag, tick. cbn. rewrite F1, F2, F3, F4, F5. reflexivity. Qed.

Lemma unroll_upto m s s' : with_flag s' false = with_flag s false ->
  snd (unroll_ m s') = snd (unroll_ m s) /\ with_flag (fst (unroll_ m s')) false = with_flag (fst (unroll_ m s)) false.
Proof.
  intros E. destruct (upto_flag s s' E) as (F1 & F2 & F3 & F4 & F5). unfold unroll_. destruct m; rewrite F2.
  - destruct (feed_all_upto feed_prior (dtrans (mdbn s)) feed_prior_upto s s' E) as [H1 H2].
    destruct (feed_all feed_prior _ s) as [s1 [u|x]], (feed_all feed_prior _ s') as [s1' [u'|x']]; cbn [fst snd seq_calls] in *; try discriminate; [|auto]. split; [reflexivity|]. apply tick_upto, H2.
  - assert (E' : with_flag (with_trans s' []) false = with_flag (with_trans s []) false) by (unfold with_flag, with_trans; cbn; rewrite F1, F2, F3, F5; reflexivity).
    destruct (feed_all_upto feed_soft (dtrans (mdbn s)) feed_soft_upto _ _ E') as [H1 H2].
    destruct (feed_all feed_soft _ (with_trans s [])) as [s1 [u|x]], (feed_all feed_soft _ (with_trans s' [])) as [s1' [u'|x']]; cbn [fst snd seq_calls] in *; try discriminate; [|auto]. split; [reflexivity|]. apply tick_upto, H2.
Qed.

Lemma flag_eq s s' x : with_flag s' false = with_flag s false -> with_flag s' x = with_flag s x.
Proof. intros E. destruct (upto_flag s s' E) as (F1 & F2 & F3 & F4 & F5). unfold with_flag. rewrite F1, F2, F3, F4, F5. reflexivity. Qed.

(** ** Canonical histories *)
Definition evidence_calls (cs : list mcall) : Prop := forall c, In c cs -> match c with MQuery _ => False | _ => True end.
Fixpoint succeed (m : method) (s : mstate) (cs : list mcall) : Prop :=
  match cs with [] => True | c :: cs' => snd (mexec m s c) = Ok tt /\ succeed m (fst (mexec m s c)) cs' end.

(** Each unroll with the evidence it uses: its own, or the last one set since the
    unroll before. *)
Fixpoint effective (pending : option (option evidence)) (cs : list mcall) : list mcall :=
  match cs with
  | [] => match pending with Some ev => [MEvidence ev None] | None => [] end
  | MEvidence ev _ :: cs' => effective (Some ev) cs'
  | MUnroll (Some ev) kw :: cs' => MUnroll (Some ev) kw :: effective None cs'
  | MUnroll None kw :: cs' =>
      match pending with
      | Some ev => MUnroll (Some (given ev)) None :: effective None cs'
      | None => MUnroll None kw :: effective None cs'
      end
  | MQuery _ :: cs' => effective pending cs'
  end.

Lemma dset_ok m s ev kw : snd (mexec m s (MEvidence ev kw)) = snd (set_evidence_ m s ev None).
Proof. cbn [mexec]. unfold dset_evidence. destruct (set_evidence_ m s ev None) as [s1 [u|x]]; [destruct u; reflexivity|reflexivity]. Qed.
Lemma dset_state m s ev kw : snd (mexec m s (MEvidence ev kw)) = Ok tt -> fst (mexec m s (MEvidence ev kw)) = with_flag (fst (set_evidence_ m s ev None)) true.
Proof. cbn [mexec]. unfold dset_evidence. destruct (set_evidence_ m s ev None) as [s1 [u|x]]; [reflexivity|discriminate]. Qed.

Lemma given_same m s ev kw : set_evidence_ m s (Some (given ev)) kw = set_evidence_ m s ev kw.
Proof. destruct ev; reflexivity. Qed.

Lemma alike_flag s s' x : alike s s' -> alike s (with_flag s' x).
Proof. intros (E1 & E2 & E3 & E4 & E5). repeat split; assumption. Qed.

(** unroll with evidence does not depend on evidence set before. *)
Lemma unroll_alike m s s' ev kw : alike s s' -> snd (dunroll m s' (Some ev) kw) = Ok tt -> dunroll m s (Some ev) kw = dunroll m s' (Some ev) kw.
Proof.
  intros A. unfold dunroll. rewrite !orb_true_r. destruct (set_evidence_alike m s s' (Some ev) kw A) as [H1 H2].
  destruct (set_evidence_ m s (Some ev) kw) as [s1 [u|x]], (set_evidence_ m s' (Some ev) kw) as [s1' [u'|x']]; cbn [fst snd seq_calls] in *; try discriminate.
  destruct u. destruct (unroll_upto m s1 s1' (H2 eq_refl)) as [U1 U2].
  destruct (unroll_ m s1) as [s2 [u2|x]], (unroll_ m s1') as [s2' [u2'|x']]; cbn [fst snd seq_calls] in *; try discriminate. intros _. f_equal. symmetry. exact U2.
Qed.

Lemma evidence_alike m s s' ev kw : alike s s' -> snd (mexec m s' (MEvidence ev kw)) = Ok tt ->
  mexec m s (MEvidence ev None) = mexec m s' (MEvidence ev kw).
Proof.
  intros A. cbn [mexec]. unfold dset_evidence. destruct (set_evidence_alike m s s' ev None A) as [H1 H2].
  destruct (set_evidence_ m s ev None) as [s1 [u|x]], (set_evidence_ m s' ev None) as [s1' [u'|x']]; cbn [fst snd seq_calls] in *; try discriminate.
  intros _. destruct u. f_equal. symmetry. apply flag_eq, H2. reflexivity.
Qed.

(** set_evidence, then unroll without evidence. *)
Lemma evidence_unroll m s ev kw kw' : snd (mexec m s (MEvidence ev kw)) = Ok tt ->
  let s1 := fst (mexec m s (MEvidence ev kw)) in
  snd (dunroll m s1 None kw') = snd (dunroll m s (Some (given ev)) None) /\
  (snd (dunroll m s1 None kw') = Ok tt -> dunroll m s1 None kw' = dunroll m s (Some (given ev)) None).
Proof.
  intros O s1. assert (E1 := dset_state m s ev kw O). rewrite dset_ok in O. fold s1 in E1. unfold dunroll. rewrite orb_true_r, given_same. rewrite E1. cbn [with_flag mflag negb orb].
  destruct (set_evidence_ m s ev None) as [s2 [u|x]]; cbn [fst snd seq_calls] in *; [|discriminate].
  destruct (unroll_upto m s2 (with_flag s2 true) eq_refl) as [U1 U2].
  change (mkM (mheap s2) (mdbn s2) (mt s2) true (mtree s2) (mtrans s2)) with (with_flag s2 true) in *.
  destruct (unroll_ m s2) as [s3 [u3|x]], (unroll_ m (with_flag s2 true)) as [s3' [u3'|x']]; cbn [fst snd seq_calls] in *; try discriminate.
  - split; [reflexivity|]. intros _. f_equal. exact U2.
  - split; [exact U1|discriminate].
Qed.

Lemma unroll_flag m s ev kw : snd (mexec m s (MUnroll ev kw)) = Ok tt -> mflag (fst (mexec m s (MUnroll ev kw))) = false.
Proof.
  cbn [mexec]. unfold dunroll. generalize (if negb (mflag s) || match ev with Some _ => true | None => false end then set_evidence_ m s ev kw else (s, Ok tt)).
  intros [s1 [u|x]]; cbn [seq_calls fst snd]; [|discriminate].
  destruct (unroll_ m s1) as [s2 [u2|x]]; cbn [seq_calls fst snd]; [reflexivity|discriminate].
Qed.

Lemma canonical_gen m cs : evidence_calls cs -> forall s pend s', succeed m s cs ->
  match pend with
  | None => s = s' /\ mflag s = false
  | Some ev => mexec m s' (MEvidence ev None) = (s, Ok tt)
  end -> succeed m s' (effective pend cs) /\ mrun m s' (effective pend cs) = mrun m s cs.
Proof.
  intros EC. induction cs as [|c cs IH]; intros s pend s' S P.
  - destruct pend as [ev|]; cbn [effective succeed mrun]; [rewrite P; auto|]. destruct P as [-> _]. auto.
  - destruct S as [O S]. specialize (IH (fun x Hx => EC x (or_intror Hx))). assert (K := EC c (or_introl eq_refl)).
    destruct c as [ev kw|[ev|] kw|Q]; [| | |destruct K].
    + cbn [effective]. change (mrun m s (MEvidence ev kw :: cs)) with (mrun m (fst (mexec m s (MEvidence ev kw))) cs). apply IH; [exact S|].
      assert (A : alike s' s).
      { destruct pend as [ev0|]; [|destruct P as [-> _]; repeat split]. assert (E := dset_state m s' ev0 None ltac:(rewrite P; reflexivity)). rewrite P in E. cbn [fst] in E. rewrite E.
        apply alike_flag, set_evidence_keeps. }
      rewrite (evidence_alike m s' s ev kw A O). destruct (mexec m s (MEvidence ev kw)) as [s1 r]. cbn [fst snd] in *. subst r. reflexivity.
    + cbn [effective succeed]. change (mrun m s (MUnroll (Some ev) kw :: cs)) with (mrun m (fst (mexec m s (MUnroll (Some ev) kw))) cs).
      change (mrun m s' (MUnroll (Some ev) kw :: effective None cs)) with (mrun m (fst (mexec m s' (MUnroll (Some ev) kw))) (effective None cs)).
      assert (A : alike s' s).
      { destruct pend as [ev0|]; [|destruct P as [-> _]; repeat split]. assert (E := dset_state m s' ev0 None ltac:(rewrite P; reflexivity)). rewrite P in E. cbn [fst] in E. rewrite E.
        apply alike_flag, set_evidence_keeps. }
      assert (E : mexec m s' (MUnroll (Some ev) kw) = mexec m s (MUnroll (Some ev) kw)) by (apply (unroll_alike m s' s ev kw A O)).
      rewrite E. assert (F := unroll_flag m s (Some ev) kw O). destruct (IH _ None _ S (conj eq_refl F)) as [X Y]. auto.
    + change (mrun m s (MUnroll None kw :: cs)) with (mrun m (fst (mexec m s (MUnroll None kw))) cs). destruct pend as [ev0|].
      * cbn [effective succeed]. change (mrun m s' (MUnroll (Some (given ev0)) None :: effective None cs)) with (mrun m (fst (mexec m s' (MUnroll (Some (given ev0)) None))) (effective None cs)).
        destruct (evidence_unroll m s' ev0 None kw ltac:(rewrite P; reflexivity)) as [U1 U2]. rewrite P in U1, U2. cbn [fst] in U1, U2.
        assert (E : mexec m s' (MUnroll (Some (given ev0)) None) = mexec m s (MUnroll None kw)) by (symmetry; apply U2, O).
        rewrite E. assert (F := unroll_flag m s None kw O). destruct (IH _ None _ S (conj eq_refl F)) as [X Y]. auto.
      * destruct P as [<- _]. cbn [effective succeed]. change (mrun m s (MUnroll None kw :: effective None cs)) with (mrun m (fst (mexec m s (MUnroll None kw))) (effective None cs)).
        assert (F := unroll_flag m s None kw O). destruct (IH _ None _ S (conj eq_refl F)) as [X Y]. auto.
Qed.

Lemma create_flag m h d : mflag (mcreate m h d) = false.
Proof. destruct m; reflexivity. Qed.

Theorem canonical m h d cs : evidence_calls cs -> succeed m (mcreate m h d) cs ->
  succeed m (mcreate m h d) (effective None cs) /\ mrun m (mcreate m h d) (effective None cs) = mrun m (mcreate m h d) cs.
Proof. intros EC S. exact (canonical_gen m cs EC _ None _ S (conj eq_refl (create_flag m h d))). Qed.

(** ** Counting *)
Fixpoint unrolled (m : method) (s : mstate) (cs : list mcall) : nat :=
  match cs with
  | [] => 0
  | c :: cs' => (match c, snd (mexec m s c) with MUnroll _ _, Ok _ => 1 | _, _ => 0 end) + unrolled m (fst (mexec m s c)) cs'
  end.

Lemma marginals_keep s Q : alike s (fst (dmarginals s Q)).
Proof. apply alike_on_tree. intros b t. apply skel_marginals. Qed.
Lemma table_keep s v : alike s (fst (slice_table s v)).
Proof. assert (A := marginals_keep s [v]). unfold slice_table. destruct (dmarginals s [v]) as [s1 [f|x]]; exact A. Qed.

(** Feeding back leaves the time and the shape of the tree. *)
Definition same_run (s s' : mstate) : Prop := mt s' = mt s /\ mdbn s' = mdbn s /\ option_map fst (mtree s') = option_map fst (mtree s).
Lemma same_run_refl s : same_run s s. Proof. repeat split. Qed.
Lemma same_run_trans s1 s2 s3 : same_run s1 s2 -> same_run s2 s3 -> same_run s1 s3.
Proof. intros (A1 & A2 & A3) (B1 & B2 & B3). repeat split; congruence. Qed.
Lemma marginals_run s Q : same_run s (fst (dmarginals s Q)).
Proof. unfold dmarginals, on_tree. destruct (mtree s) as [[first t]|] eqn:E; [|repeat split]. repeat split. cbn. rewrite E. reflexivity. Qed.
Lemma table_run s v : same_run s (fst (slice_table s v)).
Proof. assert (A := marginals_run s [v]). unfold slice_table. destruct (dmarginals s [v]) as [s1 [f|x]]; exact A. Qed.
Lemma feed_prior_run s v p : same_run s (fst (feed_prior s v p)).
Proof.
  unfold feed_prior. destruct (dget v _) as [i|]; [|apply same_run_refl]. assert (A := table_run s p). destruct (slice_table s p) as [s1 [a|x]]; cbn [fst] in *; [|exact A].
  destruct (nth_error _ i) as [n|]; [|exact A]. destruct (set_cpd n false a); exact A.
Qed.
Lemma feed_soft_run s v p : same_run s (fst (feed_soft s v p)).
Proof. unfold feed_soft. assert (A := table_run s p). destruct (slice_table s p) as [s1 [a|x]]; exact A. Qed.
Lemma feed_all_run f l : (forall s v p, same_run s (fst (f s v p))) -> forall s, same_run s (fst (feed_all f l s)).
Proof.
  intros H. induction l as [|(v & p) l IH]; intros s; [apply same_run_refl|]. cbn [feed_all]. assert (A := H s v p). destruct (f s v p) as [s1 [u|x]]; cbn [seq_calls fst] in *; [|exact A].
  exact (same_run_trans _ _ _ A (IH s1)).
Qed.

Lemma unroll_run m s : mdbn (fst (unroll_ m s)) = mdbn s /\ option_map fst (mtree (fst (unroll_ m s))) = option_map fst (mtree s) /\
  mt (fst (unroll_ m s)) = match snd (unroll_ m s) with Ok _ => S (mt s) | Err _ => mt s end.
Proof.
  unfold unroll_. destruct m.
  - destruct (feed_all_run feed_prior (dtrans (mdbn s)) feed_prior_run s) as (A1 & A2 & A3).
    destruct (feed_all feed_prior _ s) as [s1 [u|x]]; cbn [seq_calls fst snd tick mdbn mtree mt] in *; rewrite A1; auto.
  - destruct (feed_all_run feed_soft (dtrans (mdbn s)) feed_soft_run (with_trans s [])) as (A1 & A2 & A3).
    destruct (feed_all feed_soft _ (with_trans s [])) as [s1 [u|x]]; cbn [seq_calls fst snd tick mdbn mtree mt with_trans] in *; rewrite A1; auto.
Qed.

Lemma step_count m s c : mt (fst (mexec m s c)) = (match c, snd (mexec m s c) with MUnroll _ _, Ok _ => 1 | _, _ => 0 end) + mt s.
Proof.
  destruct c as [ev kw|ev kw|Q]; cbn [mexec].
  - unfold dset_evidence. assert (A := set_evidence_keeps m s ev None). destruct A as (_ & _ & A & _). destruct (set_evidence_ m s ev None) as [s1 [u|x]]; exact A.
  - unfold dunroll. assert (A : mt (fst (if negb (mflag s) || match ev with Some _ => true | None => false end then set_evidence_ m s ev kw else (s, Ok tt))) = mt s).
    { destruct (negb _ || _); [|reflexivity]. apply (set_evidence_keeps m s ev kw). }
    revert A. generalize (if negb (mflag s) || match ev with Some _ => true | None => false end then set_evidence_ m s ev kw else (s, Ok tt)). intros [s1 [u|x]] A; cbn [seq_calls fst snd] in *; [|exact A].
    destruct (unroll_run m s1) as (_ & _ & B). destruct (unroll_ m s1) as [s2 [u2|x]]; cbn [seq_calls fst snd with_flag mt] in *; lia.
  - destruct (marginals_run s Q) as (A & _). cbn [fst]. destruct (snd (dmarginals s Q)); exact A.
Qed.

Theorem time_counts m s cs : mt (mrun m s cs) = mt s + unrolled m s cs.
Proof.
  revert s. induction cs as [|c cs IH]; intros s; cbn [mrun unrolled]; [lia|]. rewrite IH, step_count. lia.
Qed.

(** ** Which network answers *)
Record answering (s : mstate) : Prop := {
  an_zero : mt s = 0 -> forall first t, mtree s = Some (first, t) -> first = true;
  an_flag : mflag s = true -> exists t, mtree s = Some (Nat.eqb (mt s) 0, t);
  an_late : 2 <= mt s -> exists t, mtree s = Some (false, t)
}.

Lemma create_answering m h d : answering (mcreate m h d).
Proof. destruct m; constructor; cbn; intros; try discriminate; lia. Qed.

Lemma on_tree_first {A} s (f : bn -> jtree -> jtree * res A) : option_map fst (mtree (fst (on_tree s f))) = option_map fst (mtree s).
Proof. unfold on_tree. destruct (mtree s) as [[first t]|] eqn:E; cbn [fst with_tree mtree]; [reflexivity|rewrite E; reflexivity]. Qed.

Lemma set_evidence_answering m s ev kw : answering s -> answering (fst (set_evidence_ m s ev kw)) /\
  (snd (set_evidence_ m s ev kw) = Ok tt -> exists t, mtree (fst (set_evidence_ m s ev kw)) = Some (Nat.eqb (mt s) 0, t)).
Proof.
  intros A. assert (FL := set_evidence_flag m s ev kw). destruct (set_evidence_keeps m s ev kw) as (_ & _ & MT & _).
  (* the network of the tree after the call *)
  assert (G : option_map fst (mtree (fst (set_evidence_ m s ev kw))) = option_map fst (mtree s) \/
              option_map fst (mtree (fst (set_evidence_ m s ev kw))) = Some (Nat.eqb (mt s) 0)).
  { unfold set_evidence_.
    assert (NT : forall first, option_map fst (mtree (fst (new_tree s first))) = option_map fst (mtree s) \/ option_map fst (mtree (fst (new_tree s first))) = Some first).
    { intros first. unfold new_tree. destruct (create_jointree _ _); cbn; auto. }
    assert (STEP : forall (f : bn -> jtree -> jtree * res unit) c,
       option_map fst (mtree (fst (c : mstate * res unit))) = option_map fst (mtree s) \/ option_map fst (mtree (fst c)) = Some (Nat.eqb (mt s) 0) ->
       option_map fst (mtree (fst (seq_calls c (fun s => on_tree s f)))) = option_map fst (mtree s) \/ option_map fst (mtree (fst (seq_calls c (fun s => on_tree s f)))) = Some (Nat.eqb (mt s) 0)).
    { intros f [c [u|x]] H; cbn [seq_calls fst] in *; [rewrite on_tree_first|]; exact H. }
    destruct m; [|destruct kw; [left; reflexivity|]]; apply STEP; destruct (mt s) as [|[|n]]; cbn [Nat.eqb]; auto using NT. left. apply on_tree_first. }
  assert (OKT : snd (set_evidence_ m s ev kw) = Ok tt -> exists t, mtree (fst (set_evidence_ m s ev kw)) = Some (Nat.eqb (mt s) 0, t)).
  { intros O. destruct (mt s) as [|[|n]] eqn:T.
    - destruct G as [G|G].
      + assert (exists first t, mtree (fst (set_evidence_ m s ev kw)) = Some (first, t)) as (first & t & E).
        { unfold set_evidence_ in O |- *. destruct m; [|destruct kw; [discriminate|]]; rewrite T in O |- *;
            (destruct (new_tree s true) as [s1 [u|x]]; cbn [seq_calls fst snd] in O |- *; [|discriminate]);
            unfold on_tree in O |- *; (destruct (mtree s1) as [[first t]|]; [|discriminate]); cbn; eauto. }
        rewrite E in G. destruct (mtree s) as [[first' t']|] eqn:E'; [|discriminate]. cbn in G. injection G as ->. rewrite (an_zero s A T first' t' E') in E. exists t. exact E.
      + destruct (mtree _) as [[first t]|]; [|discriminate]. cbn in G. injection G as ->. eauto.
    - unfold set_evidence_ in O |- *. destruct m; [|destruct kw; [discriminate|]]; rewrite T in O |- *;
        unfold new_tree in O |- *; (destruct (create_jointree (slice_net s false) None) as [t|x]; cbn [seq_calls fst snd] in O |- *; [|discriminate]); cbn; eauto.
    - destruct (an_late s A) as (t & E); [lia|]. rewrite E in G. destruct G as [G|G]; destruct (mtree (fst _)) as [[first t']|]; try discriminate; cbn in G; injection G as ->; eauto. }
  split; [|exact OKT]. constructor; rewrite ?MT, ?FL.
  - intros Z first t E. rewrite E in G. destruct G as [G|G].
    + destruct (mtree s) as [[f' t']|] eqn:E'; [|discriminate]. cbn in G. injection G as ->. exact (an_zero s A Z f' t' E').
    + rewrite Z in G. cbn in G. congruence.
  - intros F. destruct (an_flag s A F) as (t & E). rewrite E in G. destruct G as [G|G]; destruct (mtree (fst _)) as [[first t']|]; try discriminate; cbn in G; injection G as ->; eauto.
  - intros L. destruct (an_late s A L) as (t & E). rewrite E in G. destruct (mt s) as [|[|n]]; [lia|lia|]. destruct G as [G|G]; destruct (mtree (fst _)) as [[first t']|]; try discriminate; cbn in G; injection G as ->; eauto.
Qed.

Lemma unroll_answering m s : answering s -> (exists t, mtree s = Some (Nat.eqb (mt s) 0, t)) ->
  match snd (unroll_ m s) with Ok _ => answering (with_flag (fst (unroll_ m s)) false) | Err _ => True end.
Proof.
  intros A (t & E). destruct (unroll_run m s) as (_ & R1 & R2). destruct (unroll_ m s) as [s1 [u|x]]; cbn [fst snd] in *; [|exact I].
  rewrite E in R1. destruct (mtree s1) as [[first t1]|] eqn:E1; [|discriminate]. cbn in R1. injection R1 as ->.
  constructor; cbn [with_flag mt mtree mflag]; rewrite ?R2, ?E1; try (intros; lia); try discriminate.
  intros L. destruct (mt s) as [|n]; [lia|]. cbn. eauto.
Qed.

Lemma unroll_err_answering m s : answering s -> mflag (fst (unroll_ m s)) = mflag s -> snd (unroll_ m s) <> Ok tt -> answering (fst (unroll_ m s)).
Proof.
  intros A F N. destruct (unroll_run m s) as (_ & R1 & R2). assert (R3 : mt (fst (unroll_ m s)) = mt s) by (destruct (snd (unroll_ m s)) as [[]|]; [congruence|exact R2]).
  constructor; rewrite ?R3, ?F.
  - intros Z first t E. rewrite E in R1. destruct (mtree s) as [[f' t']|] eqn:E'; [|discriminate]. cbn in R1. injection R1 as ->. exact (an_zero s A Z f' t' E').
  - intros FL. destruct (an_flag s A FL) as (t & E). rewrite E in R1. destruct (mtree (fst _)) as [[first t']|]; [|discriminate]. cbn in R1. injection R1 as ->. eauto.
  - intros L. destruct (an_late s A L) as (t & E). rewrite E in R1. destruct (mtree (fst _)) as [[first t']|]; [|discriminate]. cbn in R1. injection R1 as ->. eauto.
Qed.

Lemma feed_all_flag f l : (forall s v p, mflag (fst (f s v p)) = mflag s) -> forall s, mflag (fst (feed_all f l s)) = mflag s.
Proof.
  intros H. induction l as [|(v & p) l IH]; intros s; [reflexivity|]. cbn [feed_all]. assert (A := H s v p). destruct (f s v p) as [s1 [u|x]]; cbn [seq_calls fst] in *; [|exact A]. rewrite IH. exact A.
Qed.
Lemma table_flag s v : mflag (fst (slice_table s v)) = mflag s.
Proof.
  assert (A : mflag (fst (dmarginals s [v])) = mflag s) by (unfold dmarginals, on_tree; destruct (mtree s) as [[first t]|]; reflexivity).
  unfold slice_table. destruct (dmarginals s [v]) as [s1 [f|x]]; exact A.
Qed.
Lemma unroll_keeps_flag m s : mflag (fst (unroll_ m s)) = mflag s.
Proof.
  unfold unroll_. destruct m.
  - assert (H : forall s v p, mflag (fst (feed_prior s v p)) = mflag s).
    { intros s1 v p. unfold feed_prior. destruct (dget v _); [|reflexivity]. assert (A := table_flag s1 p). destruct (slice_table s1 p) as [s2 [a|x]]; cbn [fst] in *; [|exact A].
      destruct (nth_error _ _) as [n|]; [|exact A]. destruct (set_cpd n false a); exact A. }
    assert (A := feed_all_flag feed_prior (dtrans (mdbn s)) H s). destruct (feed_all feed_prior _ s) as [s1 [u|x]]; exact A.
  - assert (H : forall s v p, mflag (fst (feed_soft s v p)) = mflag s).
    { intros s1 v p. unfold feed_soft. assert (A := table_flag s1 p). destruct (slice_table s1 p) as [s2 [a|x]]; exact A. }
    assert (A := feed_all_flag feed_soft (dtrans (mdbn s)) H (with_trans s [])). destruct (feed_all feed_soft _ (with_trans s [])) as [s1 [u|x]]; exact A.
Qed.

Lemma step_answering m s c : answering s -> answering (fst (mexec m s c)).
Proof.
  intros A. destruct c as [ev kw|ev kw|Q]; cbn [mexec].
  - unfold dset_evidence. destruct (set_evidence_answering m s ev None A) as [B C]. destruct (set_evidence_keeps m s ev None) as (_ & _ & MT & _).
    destruct (set_evidence_ m s ev None) as [s1 [u|x]]; cbn [seq_calls fst snd] in *; [|exact B]. destruct u. destruct (C eq_refl) as (t & E). destruct B as [B1 B2 B3].
    constructor; cbn [with_flag mt mtree mflag]; auto. intros _. rewrite MT. eauto.
  - unfold dunroll.
    assert (X : exists s1 r, (if negb (mflag s) || match ev with Some _ => true | None => false end then set_evidence_ m s ev kw else (s, Ok tt)) = (s1, r) /\ answering s1 /\
       (r = Ok tt -> exists t, mtree s1 = Some (Nat.eqb (mt s1) 0, t))).
    { destruct (negb (mflag s)) eqn:F; cbn [orb].
      - destruct (set_evidence_answering m s ev kw A) as [B C]. destruct (set_evidence_keeps m s ev kw) as (_ & _ & MT & _). destruct (set_evidence_ m s ev kw) as [s1 r]. cbn [fst snd] in *.
        exists s1, r. rewrite MT. auto.
      - destruct ev as [ev|].
        + destruct (set_evidence_answering m s (Some ev) kw A) as [B C]. destruct (set_evidence_keeps m s (Some ev) kw) as (_ & _ & MT & _). destruct (set_evidence_ m s (Some ev) kw) as [s1 r]. cbn [fst snd] in *.
          exists s1, r. rewrite MT. auto.
        + apply negb_false_iff in F. exists s, (Ok tt). split; [reflexivity|]. split; [exact A|]. intros _. exact (an_flag s A F). }
    destruct X as (s1 & r & E & A1 & C). rewrite E. destruct r as [u|x]; cbn [seq_calls fst]; [|exact A1]. destruct u.
    assert (U := unroll_answering m s1 A1 (C eq_refl)). assert (U' := unroll_err_answering m s1 A1 (unroll_keeps_flag m s1)).
    destruct (unroll_ m s1) as [s2 [u2|x]]; cbn [seq_calls fst snd] in *; [exact U|]. apply U'. discriminate.
  - destruct (marginals_run s Q) as (A1 & A2 & A3). cbn [fst]. assert (F : mflag (fst (dmarginals s Q)) = mflag s) by (unfold dmarginals, on_tree; destruct (mtree s) as [[first t]|]; reflexivity).
    constructor; rewrite ?A1, ?F.
    + intros Z first t E. rewrite E in A3. destruct (mtree s) as [[f' t']|] eqn:E'; [|discriminate]. cbn in A3. injection A3 as ->. exact (an_zero s A Z f' t' E').
    + intros FL. destruct (an_flag s A FL) as (t & E). rewrite E in A3. destruct (mtree (fst _)) as [[first t']|]; [|discriminate]. cbn in A3. injection A3 as ->. eauto.
    + intros L. destruct (an_late s A L) as (t & E). rewrite E in A3. destruct (mtree (fst _)) as [[first t']|]; [|discriminate]. cbn in A3. injection A3 as ->. eauto.
Qed.

Lemma run_answering m s cs : answering s -> answering (mrun m s cs).
Proof. revert s. induction cs as [|c cs IH]; intros s A; [exact A|]. cbn [mrun]. apply IH, step_answering, A. Qed.

(** After every successful call that sets evidence the tree is the one of B_0 in
    slice 0 and of the 2-TBN later. *)
Theorem right_network m h d cs ev kw : let s := mrun m (mcreate m h d) cs in
  snd (mexec m s (MEvidence ev kw)) = Ok tt -> exists t, mtree (fst (mexec m s (MEvidence ev kw))) = Some (Nat.eqb (mt s) 0, t).
Proof.
  intros s O. rewrite (dset_state m s ev kw O). rewrite dset_ok in O. destruct (set_evidence_answering m s ev None (run_answering m _ cs (create_answering m h d))) as [_ C]. exact (C O).
Qed.
Theorem right_network_unroll m h d cs ev kw : let s := mrun m (mcreate m h d) cs in
  snd (mexec m s (MUnroll ev kw)) = Ok tt -> exists t, mtree (fst (mexec m s (MUnroll ev kw))) = Some (Nat.eqb (mt s) 0, t).
Proof.
  intros s O. cbn [mexec] in O |- *. assert (A := run_answering m _ cs (create_answering m h d)). fold s in A. unfold dunroll in *.
  assert (X : exists s1 r, (if negb (mflag s) || match ev with Some _ => true | None => false end then set_evidence_ m s ev kw else (s, Ok tt)) = (s1, r) /\
       (r = Ok tt -> exists t, mtree s1 = Some (Nat.eqb (mt s) 0, t))).
  { destruct (negb (mflag s)) eqn:F; cbn [orb].
    - destruct (set_evidence_answering m s ev kw A) as [B C]. destruct (set_evidence_ m s ev kw) as [s1 r]. cbn [fst snd] in *. exists s1, r. auto.
    - destruct ev as [ev|].
      + destruct (set_evidence_answering m s (Some ev) kw A) as [B C]. destruct (set_evidence_ m s (Some ev) kw) as [s1 r]. cbn [fst snd] in *. exists s1, r. auto.
      + apply negb_false_iff in F. exists s, (Ok tt). split; [reflexivity|]. intros _. exact (an_flag s A F). }
  destruct X as (s1 & r & E & C). rewrite E in *. destruct r as [[]|x]; cbn [seq_calls fst snd] in *; [|discriminate]. destruct (C eq_refl) as (t & E1).
  destruct (unroll_run m s1) as (_ & R1 & _). destruct (unroll_ m s1) as [s2 [u2|x]]; cbn [seq_calls fst snd] in *; [|discriminate].
  rewrite E1 in R1. cbn [with_flag mtree]. destruct (mtree s2) as [[first t']|]; [|discriminate]. cbn in R1. injection R1 as ->. eauto.
Qed.
End State.
