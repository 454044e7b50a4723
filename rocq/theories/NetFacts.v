(** Facts about the node heap and the loops over neighbours. *)
From Verif Require Import Base BaseFacts NDArray NDArrayFacts Node Network NetSpec.

Lemma nth_error_list_set {A} i (x : A) l j : nth_error (list_set i x l) j =
  if Nat.eq_dec j i then match nth_error l j with Some _ => Some x | None => None end else nth_error l j.
Proof.
  revert i j; induction l as [|y l IH]; intros i j.
  - replace (list_set i x []) with (@nil A) by (destruct i; reflexivity). rewrite (proj2 (nth_error_None [] j)) by (cbn; lia).
    destruct (Nat.eq_dec j i); reflexivity.
  - destruct i as [|i], j as [|j]; cbn [list_set nth_error].
    + destruct (Nat.eq_dec 0 0); [reflexivity|lia].
    + destruct (Nat.eq_dec (S j) 0); [lia|reflexivity].
    + destruct (Nat.eq_dec 0 (S i)); [lia|reflexivity].
    + rewrite IH. destruct (Nat.eq_dec j i), (Nat.eq_dec (S j) (S i)); try lia; reflexivity.
Qed.

Lemma list_set_twice {A} i (x y : A) l : list_set i x (list_set i y l) = list_set i x l.
Proof. revert i; induction l as [|z l IH]; intros [|i]; cbn; congruence. Qed.

(** What other nodes can see of a node. *)
Definition face (n : node) := (nkind n, nname n, nvalues n).
Definition similar (h h' : heap) : Prop :=
  forall j, option_map face (nth_error h j) = option_map face (nth_error h' j).

Lemma similar_refl h : similar h h.
Proof. intros j; reflexivity. Qed.

Lemma similar_trans h1 h2 h3 : similar h1 h2 -> similar h2 h3 -> similar h1 h3.
Proof. intros A B j; rewrite A; apply B. Qed.

Lemma similar_sym h1 h2 : similar h1 h2 -> similar h2 h1.
Proof. intros A j; symmetry; apply A. Qed.

Lemma similar_get h h' j n : similar h h' -> nth_error h j = Some n ->
  exists n', nth_error h' j = Some n' /\ face n' = face n.
Proof.
  intros S H. specialize (S j). rewrite H in S. cbn in S.
  destruct (nth_error h' j) as [n'|]; cbn in S; [|discriminate]. exists n'; split; congruence.
Qed.

Lemma similar_set h i n n' : nth_error h i = Some n -> face n' = face n -> similar h (list_set i n' h).
Proof.
  intros H F j. rewrite nth_error_list_set. destruct (Nat.eq_dec j i) as [->|]; [|reflexivity].
  rewrite H. cbn. congruence.
Qed.

Definition reset (n : node) (dims : list nat) : node := with_cpd n (TArr false (np_zeros dims)) false.

Lemma face_reset n d : face (reset n d) = face n. Proof. reflexivity. Qed.

(** Every parent can be resolved. *)
Definition resolved (h : heap) (sz : string -> nat) (n : node) : Prop :=
  forall q, In q (nporder n) -> exists o m, dget q (nparents n) = Some o /\ nth_error h o = Some m /\
    (nkind m = KDiscrete \/ nkind m = KDecision) /\ length (nvalues m) = sz q.

Lemma resolved_similar h h' sz n : similar h h' -> resolved h sz n -> resolved h' sz n.
Proof.
  intros S R q I. destruct (R q I) as (o & m & D & H & K & L).
  destruct (similar_get _ _ _ _ S H) as (m' & H' & F). exists o, m'.
  unfold face in F. injection F as F1 F2 F3. rewrite F1, F3. auto.
Qed.

Lemma parent_values_resolved h sz n q : resolved h sz n -> In q (nporder n) ->
  exists vs, parent_values h n q = Ok vs /\ length vs = sz q.
Proof.
  intros R I. destruct (R q I) as (o & m & D & H & K & L). exists (nvalues m).
  unfold parent_values, dget_err, hget, values_attr. rewrite D. cbn. rewrite H. cbn.
  destruct K as [-> | ->]; auto.
Qed.

Lemma update_dimensions_ok h sz n : nkind n <> KBase -> resolved h sz n ->
  update_dimensions h n = Ok (reset n (own_dims n ++ map sz (nporder n))).
Proof.
  intros K R.
  assert (E : exists pv, mapM (parent_values h n) (nporder n) = Ok pv /\ map (@length string) pv = map sz (nporder n)).
  { assert (Q : forall q, In q (nporder n) -> exists vs, parent_values h n q = Ok vs /\ length vs = sz q)
      by (intros; eapply parent_values_resolved; eauto).
    induction (nporder n) as [|q l IH]; [exists []; auto|].
    destruct (Q q (or_introl eq_refl)) as (vs & E1 & L1).
    destruct IH as (pv & E2 & L2); [intros; apply Q; right; assumption|].
    exists (vs :: pv). cbn [mapM]. rewrite E1. cbn [rbind]. rewrite E2. cbn. split; congruence. }
  destruct E as (pv & E & L). unfold update_dimensions. rewrite E. cbn [rbind]. rewrite L.
  destruct (nkind n); try reflexivity. congruence.
Qed.

Lemma refresh_ok h sz i n n0 : nth_error h i = Some n0 -> face n = face n0 -> nkind n <> KBase ->
  resolved h sz n -> refresh h i n = (list_set i (reset n (own_dims n ++ map sz (nporder n))) h, Ok tt).
Proof.
  intros H F K R. unfold refresh. rewrite (update_dimensions_ok _ sz); [|assumption|].
  - rewrite list_set_twice. reflexivity.
  - eapply resolved_similar; [|exact R]. eapply similar_set; eauto.
Qed.

(** Loops over objects. *)
Fixpoint each (f : world -> oid -> call) (os : list oid) (w : world) : call :=
  match os with [] => ret w | o :: os' => andthen (f w o) (each f os') end.

Lemma each_ok f (act : oid -> node -> node) w0 os : NoDup os ->
  (forall o, In o os -> nth_error (whp w0) o <> None) ->
  (forall o n, face (act o n) = face n) ->
  (forall w o n, In o os -> wnet w = wnet w0 -> similar (whp w0) (whp w) -> nth_error (whp w) o = Some n ->
     nth_error (whp w0) o = Some n -> f w o = (with_heap w (list_set o (act o n) (whp w)), Ok tt)) ->
  exists h', each f os w0 = (mkW h' (wnet w0), Ok tt) /\ similar (whp w0) h' /\
    forall j, nth_error h' j = if in_dec Nat.eq_dec j os then option_map (act j) (nth_error (whp w0) j)
                               else nth_error (whp w0) j.
Proof.
  intros ND EX FA ST.
  assert (G : forall todo done w, os = done ++ todo -> wnet w = wnet w0 -> similar (whp w0) (whp w) ->
     (forall j, nth_error (whp w) j = if in_dec Nat.eq_dec j done then option_map (act j) (nth_error (whp w0) j)
                               else nth_error (whp w0) j) ->
     exists h', each f todo w = (mkW h' (wnet w0), Ok tt) /\ similar (whp w0) h' /\
      forall j, nth_error h' j = if in_dec Nat.eq_dec j os then option_map (act j) (nth_error (whp w0) j)
                               else nth_error (whp w0) j).
  { induction todo as [|o todo IH]; intros done w E N S P.
    - exists (whp w). cbn [each ret]. rewrite app_nil_r in E. subst done. split; [|split; assumption].
      destruct w as [h g]; cbn in *. rewrite N. reflexivity.
    - assert (I : In o os) by (rewrite E; apply in_or_app; right; left; reflexivity).
      assert (ND' : ~ In o done).
      { rewrite E in ND. apply NoDup_remove_2 in ND. intro; apply ND, in_or_app; auto. }
      destruct (nth_error (whp w0) o) as [n|] eqn:E0; [|exfalso; exact (EX o I E0)].
      assert (Ew : nth_error (whp w) o = Some n).
      { rewrite P. destruct (in_dec _ _ _); [contradiction|assumption]. }
      cbn [each]. rewrite (ST w o n I N S Ew E0). cbn [andthen].
      apply (IH (done ++ [o])).
      + rewrite <- app_assoc. exact E.
      + exact N.
      + eapply similar_trans; [exact S|]. cbn. eapply similar_set; [exact Ew|]. apply FA.
      + intros j. cbn. rewrite nth_error_list_set. destruct (Nat.eq_dec j o) as [->|NE].
        * rewrite Ew. destruct (in_dec Nat.eq_dec o (done ++ [o])) as [_|X].
          -- rewrite E0. reflexivity.
          -- exfalso; apply X, in_or_app; right; left; reflexivity.
        * rewrite P. destruct (in_dec Nat.eq_dec j done) as [X|X], (in_dec Nat.eq_dec j (done ++ [o])) as [Y|Y];
            try reflexivity; exfalso.
          -- apply Y, in_or_app; auto.
          -- apply in_app_or in Y. destruct Y as [Y|[Y|[]]]; auto. }
  apply (G os [] w0); [reflexivity|reflexivity|apply similar_refl|]. intros j. destruct (in_dec _ _ _) as [[]|]; reflexivity.
Qed.

Lemma for_keys_each f w0 l os : mapM (fun v => dget_err KeyError v (ggraph (wnet w0))) l = Ok os ->
  (forall w o w', In o os -> wnet w = wnet w0 -> f w o = (w', Ok tt) -> wnet w' = wnet w0) ->
  forall w, wnet w = wnet w0 -> for_keys f l w = each f os w.
Proof.
  revert os; induction l as [|v l IH]; intros os M K w N.
  - cbn in M. injection M as <-. reflexivity.
  - cbn [mapM] in M. unfold dget_err at 1 in M. cbn [for_keys]. rewrite N.
    destruct (dget v (ggraph (wnet w0))) as [o|] eqn:D; cbn [rbind] in M; [|discriminate].
    destruct (mapM _ l) as [os'|] eqn:M'; cbn [rbind] in M; [|discriminate].
    injection M as <-. cbn [each]. destruct (f w o) as [w' [[]|e]] eqn:F; cbn [andthen]; [|reflexivity].
    apply IH; [reflexivity| |].
    + intros w1 o1 w1' I N1 F1. eapply K; eauto. right; exact I.
    + eapply K; [left; reflexivity|exact N|exact F].
Qed.

(** Lookups in consistent networks. *)
Section Consistent.
Context (w : world) (C : consistent w).

Lemma named v i n : holds w v i n -> nname n = v.
Proof.
  intros [L H]. destruct (co_named w C v i L) as (n' & H' & E). congruence.
Qed.

Lemma same_object u v i n m : holds w u i n -> holds w v i m -> u = v.
Proof. intros A B. rewrite <- (named _ _ _ A), <- (named _ _ _ B). destruct A, B; congruence. Qed.

Lemma lookup_inj u v i : dget u (lookup (wnet w)) = Some i -> dget v (lookup (wnet w)) = Some i -> u = v.
Proof.
  intros A B. destruct (co_named w C u i A) as (n & H & _). eapply same_object; split; eassumption.
Qed.

Lemma in_lookup v : In v (dkeys (lookup (wnet w))) -> exists i n, holds w v i n.
Proof.
  intros I. destruct (dget_key _ _ I) as (i & D). destruct (co_named w C v i D) as (n & H & _).
  exists i, n; split; assumption.
Qed.

Lemma holds_in v i n : holds w v i n -> In v (dkeys (lookup (wnet w))).
Proof. intros [D _]. eapply dget_Some_key, D. Qed.

Lemma graph_get v : dget v (ggraph (wnet w)) = dget v (lookup (wnet w)).
Proof.
  destruct (dget v (lookup (wnet w))) as [i|] eqn:E.
  - apply (co_same w C); exact E.
  - destruct (dget v (ggraph (wnet w))) as [j|] eqn:E'; [|reflexivity].
    apply (co_same w C) in E'. congruence.
Qed.

Lemma graph_mem v : dmem v (ggraph (wnet w)) = dmem v (lookup (wnet w)).
Proof. unfold dmem. rewrite graph_get. reflexivity. Qed.

Lemma succs_In v x : In x (succs (wnet w) v) <-> edge w v x.
Proof.
  unfold succs. rewrite in_map_iff. split.
  - intros ([a b] & E & I). cbn in E. subst b. apply filter_In in I. destruct I as [I E]. cbn in E.
    apply String.eqb_eq in E. subst a. exact I.
  - intros I. exists (v, x). split; [reflexivity|]. apply filter_In. split; [exact I|]. apply eqb_refl_s.
Qed.

Lemma preds_In v x : In x (preds (wnet w) v) <-> edge w x v.
Proof.
  unfold preds. rewrite in_map_iff. split.
  - intros ([a b] & E & I). cbn in E. subst a. apply filter_In in I. destruct I as [I E]. cbn in E.
    apply String.eqb_eq in E. subst b. exact I.
  - intros I. exists (x, v). split; [reflexivity|]. apply filter_In. split; [exact I|]. apply eqb_refl_s.
Qed.

Lemma succs_NoDup v : NoDup (succs (wnet w) v).
Proof.
  unfold succs. pose proof (co_edges w C) as ND. induction (gedges (wnet w)) as [|[a b] l IH]; [constructor|].
  apply NoDup_cons_iff in ND. destruct ND as [NI ND]. cbn [filter fst]. destruct (String.eqb v a) eqn:E; [|auto].
  apply String.eqb_eq in E. subst a. cbn [map snd]. constructor; [|auto].
  rewrite in_map_iff. intros ([a' b'] & E & I). cbn in E. subst b'. apply filter_In in I. destruct I as [I E].
  cbn in E. apply String.eqb_eq in E. subst a'. contradiction.
Qed.

Lemma preds_NoDup v : NoDup (preds (wnet w) v).
Proof.
  unfold preds. pose proof (co_edges w C) as ND. induction (gedges (wnet w)) as [|[a b] l IH]; [constructor|].
  apply NoDup_cons_iff in ND. destruct ND as [NI ND]. cbn [filter snd]. destruct (String.eqb v b) eqn:E; [|auto].
  apply String.eqb_eq in E. subst b. cbn [map fst]. constructor; [|auto].
  rewrite in_map_iff. intros ([a' b'] & E & I). cbn in E. subst a'. apply filter_In in I. destruct I as [I E].
  cbn in E. apply String.eqb_eq in E. subst b'. contradiction.
Qed.

(** The objects behind a list of node names. *)
Lemma objects l : (forall v, In v l -> In v (dkeys (lookup (wnet w)))) -> NoDup l ->
  exists os, keys_objects (wnet w) l = Ok os /\ NoDup os /\
    (forall j, In j os <-> exists v, In v l /\ dget v (lookup (wnet w)) = Some j) /\
    map (obj_name (whp w)) os = l.
Proof.
  induction l as [|v l IH]; intros I ND.
  - exists []. repeat split; [constructor|intros []|intros (v & [] & _)].
  - apply NoDup_cons_iff in ND. destruct ND as [NI ND].
    destruct IH as (os & M & NDo & S & MP); [intros; apply I; right; assumption|exact ND|].
    destruct (in_lookup v) as (i & n & Hl & Hn); [apply I; left; reflexivity|].
    exists (i :: os). unfold keys_objects in *. cbn [mapM]. unfold dget_err at 1. rewrite graph_get, Hl.
    cbn [rbind]. rewrite M. cbn [rbind]. repeat split.
    + constructor; [|assumption]. rewrite S. intros (v' & I' & D). assert (v = v') by (eapply lookup_inj; eauto).
      subst; contradiction.
    + intros [->|X]; [exists v; split; [left; reflexivity|assumption]|].
      apply S in X. destruct X as (v' & A & B). exists v'; split; [right|]; assumption.
    + intros (v' & [->|A] & B); [left; congruence|]. right. apply S. exists v'; auto.
    + cbn [map]. rewrite MP. f_equal. unfold obj_name. rewrite Hn. apply (named v i n); split; assumption.
Qed.

Lemma children_objects v : exists os, keys_objects (wnet w) (succs (wnet w) v) = Ok os /\ NoDup os /\
    (forall j, In j os <-> exists x, edge w v x /\ dget x (lookup (wnet w)) = Some j) /\
    map (obj_name (whp w)) os = succs (wnet w) v.
Proof.
  destruct (objects (succs (wnet w) v)) as (os & A & B & S & D).
  - intros x I. apply succs_In in I. apply (co_ends w C _ _ I).
  - apply succs_NoDup.
  - exists os. repeat split; try assumption; intros H.
    + apply S in H. destruct H as (x & I & D'). exists x. split; [apply succs_In|]; assumption.
    + apply S. destruct H as (x & I & D'). exists x. split; [apply succs_In|]; assumption.
Qed.

Lemma parents_objects v : exists os, keys_objects (wnet w) (preds (wnet w) v) = Ok os /\ NoDup os /\
    (forall j, In j os <-> exists x, edge w x v /\ dget x (lookup (wnet w)) = Some j) /\
    map (obj_name (whp w)) os = preds (wnet w) v.
Proof.
  destruct (objects (preds (wnet w) v)) as (os & A & B & S & D).
  - intros x I. apply preds_In in I. apply (co_ends w C _ _ I).
  - apply preds_NoDup.
  - exists os. repeat split; try assumption; intros H.
    + apply S in H. destruct H as (x & I & D'). exists x. split; [apply preds_In|]; assumption.
    + apply S. destruct H as (x & I & D'). exists x. split; [apply preds_In|]; assumption.
Qed.

Context (F : forall v i n, holds w v i n -> nkind n = KDiscrete).

Lemma size_get v i n : holds w v i n -> size w v = length (nvalues n).
Proof. intros [D H]. unfold size. rewrite D, H. reflexivity. Qed.

Lemma resolved_node v i n : holds w v i n -> resolved (whp w) (size w) n.
Proof.
  intros H q I. apply (co_parents w C v i n q H) in I.
  destruct (in_lookup q) as (o & m & Ho); [apply (co_ends w C _ _ I)|].
  exists o, m. destruct Ho as [D E]. split; [|split; [assumption|split]].
  - apply (co_pdict w C v i n q o H); auto.
  - left. apply (F q o m); split; assumption.
  - symmetry; eapply size_get; split; eassumption.
Qed.

End Consistent.
