(** networkx's topological sort: what it yields and when it raises. *)
From Verif Require Import Base BaseFacts NDArray Factor Exact Sampling Topo TopoSpec.
Import ListNotations.

(** ** Paths *)
Lemma leads_app es u v w : leads es u v -> leads es v w -> leads es u w.
Proof. induction 1 as [u v H|u v x H L IH]; intros L'; [eapply leads_step; eassumption|eapply leads_step; [exact H|apply IH, L']]. Qed.

Lemma leads_last es u v : leads es u v -> exists p, In (p, v) es /\ (p = u \/ leads es u p).
Proof.
  induction 1 as [u v H|u v x H L (p & P1 & P2)]; [exists u; auto|]. exists p. split; [exact P1|]. right.
  destruct P2 as [->|P2]; [apply leads_edge, H|eapply leads_step; eassumption].
Qed.

Lemma leads_ends es u v : leads es u v -> (exists x, In (u, x) es) /\ (exists x, In (x, v) es).
Proof. induction 1 as [u v H|u v w H L [I1 I2]]; eauto. Qed.

(** In a sorted list, ancestors come before. *)
Lemma sorted_closed es l u v : sorted es l -> leads es u v -> In v l -> In u l.
Proof.
  intros S L. induction L as [u v H|u v w H L IH]; intros I.
  - apply in_split in I as (pre & post & E). rewrite E. apply in_or_app. left. exact (S pre v post u E H).
  - apply IH in I. apply in_split in I as (pre & post & E). rewrite E. apply in_or_app. left. exact (S pre v post u E H).
Qed.

Lemma sorted_before es l : sorted es l -> NoDup l -> forall u v pre post, leads es u v -> l = pre ++ v :: post -> In u pre.
Proof.
  intros S ND u v pre post L. revert pre post. induction L as [u v H|u v w H L IH]; intros pre post E.
  - exact (S pre v post u E H).
  - assert (I := IH pre post E). apply in_split in I as (p1 & p2 & ->). apply in_or_app. left.
    apply (S p1 v (p2 ++ w :: post) u); [|exact H]. rewrite E, <- app_assoc. reflexivity.
Qed.

Lemma sorted_no_cycle es l v : sorted es l -> NoDup l -> In v l -> ~ leads es v v.
Proof.
  intros S ND I L. apply in_split in I as (pre & post & E). assert (J := sorted_before es l S ND v v pre post L E).
  rewrite E in ND. apply NoDup_remove_2 in ND. apply ND, in_or_app. auto.
Qed.

(** A set in which every node has a predecessor holds a cycle above each node. *)
Section Walk.
Variables (es : list (string * string)) (S : list string).
Hypothesis PR : forall v, In v S -> exists u, In u S /\ In (u, v) es.

(** Walks backwards, the start last. *)
Fixpoint chain (l : list string) : Prop :=
  match l with u :: ((v :: _) as l') => In (u, v) es /\ chain l' | _ => True end.

Lemma walk_back v k : In v S -> exists l, length l = k /\ chain (l ++ [v]) /\ incl l S.
Proof.
  intros V. induction k as [|k (l & L & C & I)]; [exists []; cbn; repeat split; intros x []|].
  assert (exists u l', l ++ [v] = u :: l' /\ In u S) as (u & l' & E & U).
  { destruct l as [|u l]; cbn; [exists v, []; auto|]. exists u, (l ++ [v]). split; [reflexivity|]. apply I. left. reflexivity. }
  destruct (PR u U) as (p & P & Pe). exists (p :: l). cbn [length app]. split; [congruence|]. split.
  - rewrite E in C |- *. cbn. split; [exact Pe|exact C].
  - intros x [<-|X]; [exact P|apply I, X].
Qed.

Lemma chain_tail l1 l2 : chain (l1 ++ l2) -> chain l2.
Proof.
  induction l1 as [|x l1 IH]; [auto|]. cbn [app]. intros C. apply IH. destruct (l1 ++ l2) as [|y r]; [exact I|apply C].
Qed.

Lemma chain_leads l : forall u v r, chain (u :: l ++ v :: r) -> leads es u v.
Proof.
  induction l as [|x l IH]; intros u v r C; cbn [app] in C.
  - apply leads_edge, C.
  - eapply leads_step; [apply C|]. apply (IH x v r), C.
Qed.

Lemma duplicate (l : list string) : ~ NoDup l -> exists x l1 l2 l3, l = l1 ++ x :: l2 ++ x :: l3.
Proof.
  induction l as [|x l IH]; intros N; [destruct N; constructor|].
  destruct (in_dec string_dec x l) as [I|I].
  - apply in_split in I as (l2 & l3 & ->). exists x, [], l2, l3. reflexivity.
  - destruct IH as (y & l1 & l2 & l3 & ->); [intros N'; apply N; constructor; assumption|]. exists y, (x :: l1), l2, l3. reflexivity.
Qed.

Lemma cycle_above v : In v S -> behind_cycle es v.
Proof.
  intros V. destruct (walk_back v (Datatypes.S (length S)) V) as (l & L & C & I).
  destruct (duplicate l) as (x & l1 & l2 & l3 & ->).
  { intros ND. apply (NoDup_incl_length ND) in I. lia. }
  exists x. rewrite <- app_assoc in C. apply chain_tail in C. cbn [app] in C. rewrite <- app_assoc in C. split.
  - cbn [app] in C. apply (chain_leads l2 x x _ C).
  - right. apply (chain_leads (l2 ++ x :: l3) x v []). rewrite <- app_assoc. exact C.
Qed.
End Walk.

Lemma mem_cons c x l : mem c (x :: l) = String.eqb c x || mem c l.
Proof. reflexivity. Qed.

(** ** The loop *)
Section Sort.
Variables (ns : list string) (es : list (string * string)).
Hypothesis G : graph ns es.

(** Edges to [c] from nodes not yet yielded. *)
Definition pend (l : list string) (c : string) : nat :=
  length (filter (fun e => String.eqb c (snd e) && negb (mem (fst e) l)) es).

Lemma pend_nil c : pend [] c = indegree es c.
Proof. unfold pend, indegree. f_equal. apply filter_ext. intros e. cbn. apply andb_true_r. Qed.

Lemma pend_zero l c : pend l c = 0 <-> forall u, In (u, c) es -> In u l.
Proof.
  unfold pend. split.
  - intros Z u I. apply length_zero_iff_nil in Z. destruct (mem u l) eqn:M; [apply mem_In, M|]. exfalso.
    assert (J : In (u, c) (filter (fun e => String.eqb c (snd e) && negb (mem (fst e) l)) es)).
    { apply filter_In. split; [exact I|]. cbn. rewrite eqb_refl_s, M. reflexivity. }
    rewrite Z in J. exact J.
  - intros H. destruct (filter _ es) as [|[u c'] r] eqn:E; [reflexivity|]. exfalso.
    assert (J : In (u, c') (filter (fun e => String.eqb c (snd e) && negb (mem (fst e) l)) es)) by (rewrite E; left; reflexivity).
    apply filter_In in J as [J1 J2]. apply andb_true_iff in J2 as [J2 J3]. cbn in J2, J3. apply String.eqb_eq in J2. subst c'.
    apply H in J1. apply mem_In in J1. rewrite J1 in J3. discriminate.
Qed.

Lemma outs_In v c : In c (outs es v) <-> In (v, c) es.
Proof.
  unfold outs. rewrite in_map_iff. split.
  - intros ([a b] & E & I). cbn in E. subst b. apply filter_In in I as [I E]. cbn in E. apply String.eqb_eq in E. subst a. exact I.
  - intros I. exists (v, c). split; [reflexivity|]. apply filter_In. split; [exact I|]. cbn. apply eqb_refl_s.
Qed.

Lemma outs_NoDup v : NoDup (outs es v).
Proof.
  destruct G as (_ & ND & _). clear G. unfold outs. induction es as [|[a b] l IH]; [constructor|]. inversion ND as [|? ? N ND']; subst. cbn.
  destruct (String.eqb_spec v a) as [->|E]; [|apply IH, ND']. cbn. constructor; [|apply IH, ND'].
  rewrite in_map_iff. intros ([a' b'] & E' & I). cbn in E'. subst b'. apply filter_In in I as [I E']. cbn in E'. apply String.eqb_eq in E'. subst a'. contradiction.
Qed.

Lemma pend_snoc l v c : ~ In v l -> pend l c = pend (l ++ [v]) c + (if mem c (outs es v) then 1 else 0).
Proof.
  intros NI. destruct G as (_ & ND & _). clear G. unfold pend, outs.
  assert (N0 : mem v l = false) by (destruct (mem v l) eqn:M; [apply mem_In in M; contradiction|reflexivity]).
  induction es as [|[a b] r IH]; [reflexivity|]. inversion ND as [|? ? N ND']; subst. specialize (IH ND'). cbn [filter fst snd].
  assert (M : mem a (l ++ [v]) = mem a l || String.eqb a v).
  { unfold mem. rewrite existsb_app. cbn. rewrite orb_false_r. reflexivity. }
  rewrite M. destruct (String.eqb_spec c b) as [->|Ecb].
  - destruct (String.eqb_spec v a) as [->|Eva].
    + rewrite N0, eqb_refl_s. cbn [negb orb andb map snd]. cbn [length]. rewrite mem_cons, eqb_refl_s. cbn [orb].
      rewrite IH. replace (mem b (map snd (filter (fun e => String.eqb a (fst e)) r))) with false; [lia|].
      symmetry. apply not_true_is_false. intros X. apply mem_In, in_map_iff in X as ([a' b'] & E & I). cbn in E. subst b'.
      apply filter_In in I as [I E]. cbn in E. apply String.eqb_eq in E. subst a'. contradiction.
    + rewrite (eqb_neq_s a v) by congruence. rewrite orb_false_r. destruct (mem a l); cbn [negb andb length]; rewrite IH; reflexivity.
  - cbn [andb]. rewrite IH. f_equal. destruct (String.eqb v a); [|reflexivity]. cbn [map snd]. rewrite mem_cons.
    rewrite (eqb_neq_s c b) by exact Ecb. reflexivity.
Qed.

(** The inner loop. *)
Lemma relax_all cs : forall m z, NoDup cs -> NoDup (dkeys m) -> (forall c, In c cs -> exists d, dget c m = Some d) ->
  exists m' z', foldM relax cs (m, z) = Ok (m', z') /\ NoDup (dkeys m') /\ Permutation (z' ++ dkeys m') (z ++ dkeys m) /\
    (forall c d, dget c m' = Some d -> exists d0, dget c m = Some d0 /\ d = d0 - (if mem c cs then 1 else 0) /\ (0 < d0 -> 0 < d)) /\
    (forall c, In c z' -> In c z \/ In c cs /\ exists d0, dget c m = Some d0 /\ d0 - 1 = 0).
Proof.
  induction cs as [|c cs IH]; intros m z NC NM D.
  - exists m, z. split; [reflexivity|]. split; [exact NM|]. split; [apply Permutation_refl|]. split; [|auto].
    intros c d E. exists d. split; [exact E|]. cbn. split; lia.
  - inversion NC as [|? ? Nc NC']; subst. destruct (D c (or_introl eq_refl)) as (d & Ed). cbn [foldM]. unfold relax at 1. cbn [fst snd]. rewrite Ed.
    assert (Kc : mem c (dkeys m) = true) by (apply mem_In; eapply dget_Some_key, Ed).
    assert (KS : dkeys (dset c (d - 1) m) = dkeys m) by (rewrite dkeys_dset, Kc; reflexivity).
    destruct (Nat.eqb_spec (d - 1) 0) as [Z|Z]; cbn [rbind].
    + destruct (IH (ddel c (dset c (d - 1) m)) (c :: z) NC') as (m' & z' & E & N' & P & Q1 & Q2).
      { apply ddel_NoDup. rewrite KS. exact NM. }
      { intros x Hx. rewrite dget_ddel_neq by congruence. rewrite dget_dset_neq by congruence. apply D. right. exact Hx. }
      exists m', z'. split; [exact E|]. split; [exact N'|]. split.
      { rewrite P, dkeys_ddel, KS. cbn [app]. rewrite Permutation_middle. apply Permutation_app_head.
        apply dget_Some_key in Ed. clear -Ed. change (map fst m) with (dkeys m). induction (dkeys m) as [|y k IHk]; [destruct Ed|]. cbn [remove1].
        destruct (String.eqb_spec c y) as [->|E]; [reflexivity|]. destruct Ed as [->|Ed]; [congruence|]. rewrite perm_swap. constructor. apply IHk, Ed. }
      split.
      * intros x dx Ex. destruct (Q1 x dx Ex) as (d0 & E0 & -> & POS). destruct (string_dec x c) as [->|NE].
        { rewrite dget_ddel_eq in E0; [discriminate|]. rewrite KS. exact NM. }
        rewrite dget_ddel_neq, dget_dset_neq in E0 by congruence. exists d0. split; [exact E0|]. split; [|exact POS].
        rewrite mem_cons. rewrite (eqb_neq_s x c) by exact NE. reflexivity.
      * intros x Hx. destruct (Q2 x Hx) as [[<-|Hz]|(Hc & d0 & E0 & Z0)]; [right|left; exact Hz|right].
        -- split; [left; reflexivity|]. exists d. auto.
        -- split; [right; exact Hc|]. exists d0. rewrite dget_ddel_neq, dget_dset_neq in E0 by congruence. auto.
    + destruct (IH (dset c (d - 1) m) z NC') as (m' & z' & E & N' & P & Q1 & Q2).
      { rewrite KS. exact NM. }
      { intros x Hx. rewrite dget_dset_neq by congruence. apply D. right. exact Hx. }
      exists m', z'. split; [exact E|]. split; [exact N'|]. split; [rewrite P, KS; apply Permutation_refl|]. split.
      * intros x dx Ex. destruct (Q1 x dx Ex) as (d0 & E0 & -> & POS). destruct (string_dec x c) as [->|NE].
        -- rewrite dget_dset_eq in E0. injection E0 as <-. exists d. split; [exact Ed|].
           replace (mem c cs) with false in * by (symmetry; apply not_true_is_false; intros X; apply mem_In in X; contradiction).
           rewrite mem_cons. rewrite eqb_refl_s. cbn [orb]. split; [lia|]. intros; lia.
        -- rewrite dget_dset_neq in E0 by congruence. exists d0. split; [exact E0|]. split; [|exact POS].
           rewrite mem_cons. rewrite (eqb_neq_s x c) by exact NE. reflexivity.
      * intros x Hx. destruct (Q2 x Hx) as [Hz|(Hc & d0 & E0 & Z0)]; [left; exact Hz|right]. split; [right; exact Hc|].
        exists d0. rewrite dget_dset_neq in E0 by congruence. auto.
Qed.

Record loop_inv (l : list string) (m : dict nat) (z : list string) : Prop := {
  li_perm : Permutation (l ++ z ++ dkeys m) ns;
  li_count : forall v d, dget v m = Some d -> d = pend l v /\ 0 < d;
  li_zero : forall v, In v z -> forall u, In (u, v) es -> In u l;
  li_sorted : sorted es l
}.

Lemma loop_run fuel : forall l m z, loop_inv l m z -> length z + length m <= fuel ->
  exists m', loop_inv (l ++ fst (topo_loop es fuel m z)) m' [] /\
    snd (topo_loop es fuel m z) = match m' with [] => None | _ => Some NetworkXUnfeasible end.
Proof.
  induction fuel as [|fuel IH]; intros l m z I F.
  - destruct z; [|cbn in F; lia]. exists m. cbn. rewrite app_nil_r. auto.
  - destruct z as [|v z]; [exists m; cbn; rewrite app_nil_r; auto|].
    destruct I as [P Ct Z S]. destruct G as (ND & NE & EN).
    assert (ND' : NoDup (l ++ (v :: z) ++ dkeys m)) by (eapply Permutation_NoDup; [apply Permutation_sym, P|exact ND]).
    assert (Nv : ~ In v l).
    { intros X. apply in_split in X as (p1 & p2 & ->). rewrite <- app_assoc in ND'. cbn [app] in ND'. apply NoDup_remove_2 in ND'.
      apply ND', in_or_app. right. apply in_or_app. right. left. reflexivity. }
    assert (Pv : forall u, In (u, v) es -> In u l) by (apply Z; left; reflexivity).
    assert (Ch : forall c, In c (outs es v) -> exists d, dget c m = Some d).
    { intros c Hc. apply outs_In in Hc. apply dget_key.
      assert (Ic : In c (l ++ (v :: z) ++ dkeys m)) by (eapply Permutation_in; [apply Permutation_sym, P|apply (EN v c Hc)]).
      apply in_app_or in Ic as [Ic|Ic]; [|apply in_app_or in Ic as [Ic|Ic]; [|exact Ic]]; exfalso; apply Nv.
      - apply in_split in Ic as (p1 & p2 & E). rewrite E. apply in_or_app. left. exact (S p1 c p2 v E Hc).
      - exact (Z c Ic v Hc). }
    assert (NM : NoDup (dkeys m)).
    { clear -ND'. rewrite app_assoc in ND'. induction (l ++ v :: z) as [|x r IHr]; [exact ND'|]. inversion ND'; auto. }
    destruct (relax_all (outs es v) m z (outs_NoDup v) NM Ch) as (m1 & z1 & E & NM1 & P1 & Q1 & Q2).
    assert (I1 : loop_inv (l ++ [v]) m1 z1).
    { split.
      - rewrite <- app_assoc. cbn [app]. rewrite <- P. apply Permutation_app_head. cbn [app]. constructor. exact P1.
      - intros c d Ed. destruct (Q1 c d Ed) as (d0 & E0 & -> & POS). destruct (Ct c d0 E0) as [C0 C1]. assert (PS := pend_snoc l v c Nv).
        split; [lia|apply POS, C1].
      - intros c Hc u Hu. apply in_or_app. destruct (Q2 c Hc) as [Hz|(Ho & d0 & E0 & Z0)]; [left; apply (Z c (or_intror Hz) u Hu)|].
        destruct (Ct c d0 E0) as [C0 C1]. assert (PS := pend_snoc l v c Nv). apply mem_In in Ho. rewrite Ho in PS.
        assert (PZ : pend (l ++ [v]) c = 0) by lia. apply in_app_or. apply (proj1 (pend_zero (l ++ [v]) c) PZ u Hu).
      - intros pre x post u Ex Hu. destruct post as [|y post].
        + apply app_inj_tail in Ex as [-> ->]. apply Pv, Hu.
        + destruct (exists_last (l := y :: post)) as (q & y' & Eq); [discriminate|]. rewrite Eq in Ex.
          change (pre ++ x :: q ++ [y']) with (pre ++ (x :: q) ++ [y']) in Ex. rewrite app_assoc in Ex. apply app_inj_tail in Ex as [Ex _].
          exact (S pre x q u Ex Hu). }
    assert (L1 : length z1 + length m1 <= fuel).
    { apply Permutation_length in P1. unfold dkeys in P1. rewrite !app_length, !map_length in P1. cbn [length] in F. lia. }
    destruct (IH (l ++ [v]) m1 z1 I1 L1) as (m' & I' & E').
    exists m'. cbn [topo_loop]. rewrite E. cbn [fst snd]. rewrite <- app_assoc in I'. split; [exact I'|exact E'].
Qed.

Lemma start_inv : loop_inv [] (map (fun v => (v, indegree es v)) (filter (fun v => negb (Nat.eqb (indegree es v) 0)) ns))
    (rev (filter (fun v => Nat.eqb (indegree es v) 0) ns)).
Proof.
  split.
  - cbn [app]. unfold dkeys. rewrite map_map. cbn [fst]. rewrite map_id. rewrite <- Permutation_rev. clear G.
    induction ns as [|v l IH]; [constructor|]. cbn [filter]. destruct (Nat.eqb _ 0); cbn [negb app].
    + constructor. exact IH.
    + rewrite <- Permutation_middle. constructor. exact IH.
  - intros v d E. apply dget_In in E. apply in_map_iff in E as (x & E & I). injection E as <- <-. apply filter_In in I as [_ I].
    rewrite pend_nil. split; [reflexivity|]. destruct (Nat.eqb_spec (indegree es x) 0); [discriminate|lia].
  - intros v I u Hu. apply in_rev, filter_In in I as [_ I]. apply Nat.eqb_eq in I. rewrite <- pend_nil in I. exact (proj1 (pend_zero [] v) I u Hu).
  - intros [|? ?] v post u E; discriminate.
Qed.

Lemma sort_run : exists m, loop_inv (fst (topological_sort ns es)) m [] /\
  snd (topological_sort ns es) = match m with [] => None | _ => Some NetworkXUnfeasible end.
Proof.
  apply (loop_run (length ns) [] _ _ start_inv).
  rewrite rev_length, map_length. clear G. induction ns as [|v l IH]; [apply le_n|]. cbn [filter]. destruct (Nat.eqb _ 0); cbn [negb length]; lia.
Qed.

(** What is left over: nodes that wait for each other. *)
Lemma left_over l m : loop_inv l m [] -> forall v, In v (dkeys m) -> exists u, In u (dkeys m) /\ In (u, v) es.
Proof.
  intros [P Ct _ S] v V. destruct (dget_key _ _ V) as (d & E). destruct (Ct v d E) as [C0 C1].
  assert (X : filter (fun e => String.eqb v (snd e) && negb (mem (fst e) l)) es <> []).
  { intros X. unfold pend in C0. rewrite X in C0. cbn in C0. lia. }
  destruct (filter _ es) as [|[u v'] r] eqn:EF; [congruence|].
  assert (J : In (u, v') (filter (fun e => String.eqb v (snd e) && negb (mem (fst e) l)) es)) by (rewrite EF; left; reflexivity).
  apply filter_In in J as [J1 J2]. apply andb_true_iff in J2 as [J2 J3]. cbn in J2, J3. apply String.eqb_eq in J2. subst v'.
  exists u. split; [|exact J1]. destruct G as (_ & _ & EN).
  assert (Iu : In u (l ++ [] ++ dkeys m)) by (eapply Permutation_in; [apply Permutation_sym, P|apply (EN u v J1)]).
  apply in_app_or in Iu as [Iu|Iu]; [|exact Iu]. apply mem_In in Iu. rewrite Iu in J3. discriminate.
Qed.

Lemma sort_nodup : NoDup (fst (topological_sort ns es)).
Proof.
  destruct sort_run as (m & [P _ _ _] & _). destruct G as (ND & _). eapply Permutation_NoDup in ND; [|apply Permutation_sym, P].
  clear -ND. induction (fst _) as [|x l IH]; [constructor|]. cbn in ND. inversion ND as [|? ? N ND']; subst. constructor; [|apply IH, ND'].
  intros X. apply N, in_or_app. left. exact X.
Qed.

Theorem sort_sorted : sorted es (fst (topological_sort ns es)).
Proof. destruct sort_run as (m & [_ _ _ S] & _). exact S. Qed.

(** Exactly the nodes that are neither on a cycle nor behind one are yielded. *)
Theorem sort_yields v : In v (fst (topological_sort ns es)) <-> In v ns /\ ~ behind_cycle es v.
Proof.
  destruct sort_run as (m & I & _). assert (L := left_over _ _ I). destruct I as [P _ _ S]. split.
  - intros V. split.
    + eapply Permutation_in; [exact P|]. apply in_or_app. left. exact V.
    + intros (c & Lc & R). assert (Ic : In c (fst (topological_sort ns es))).
      { destruct R as [->|R]; [exact V|]. exact (sorted_closed es _ c v S R V). }
      exact (sorted_no_cycle es _ c S sort_nodup Ic Lc).
  - intros [V N]. eapply Permutation_in in V; [|apply Permutation_sym, P]. cbn [app] in V. apply in_app_or in V as [V|V]; [exact V|].
    exfalso. apply N. exact (cycle_above es (dkeys m) L v V).
Qed.

Theorem sort_acyclic : acyclic es -> snd (topological_sort ns es) = None /\ Permutation ns (fst (topological_sort ns es)).
Proof.
  intros A. destruct sort_run as (m & I & E). assert (L := left_over _ _ I). destruct I as [P _ _ _].
  destruct m as [|[k d] m].
  - split; [exact E|]. cbn in P. rewrite app_nil_r in P. apply Permutation_sym, P.
  - exfalso. destruct (cycle_above es _ L k (or_introl eq_refl)) as (c & Lc & _). exact (A c Lc).
Qed.

Theorem sort_cyclic : ~ acyclic es -> snd (topological_sort ns es) = Some NetworkXUnfeasible.
Proof.
  intros A. destruct sort_run as (m & [P _ _ S] & E). destruct m as [|[k d] m]; [|exact E]. exfalso. apply A. intros v L.
  destruct (leads_ends es v v L) as [(x & X) _]. apply (sorted_no_cycle es _ v S sort_nodup); [|exact L].
  cbn in P. rewrite app_nil_r in P. eapply Permutation_in; [apply Permutation_sym, P|]. destruct G as (_ & _ & EN). apply (EN v x X).
Qed.

(** Acyclicity is decided by the sort. *)
Lemma acyclic_dec : acyclic es \/ ~ acyclic es.
Proof.
  destruct sort_run as (m & I & E). assert (L := left_over _ _ I). destruct I as [P _ _ S]. destruct m as [|[k d] m].
  - left. intros v Lv. destruct (leads_ends es v v Lv) as [(x & X) _]. apply (sorted_no_cycle es _ v S sort_nodup); [|exact Lv].
    cbn in P. rewrite app_nil_r in P. eapply Permutation_in; [apply Permutation_sym, P|]. destruct G as (_ & _ & EN). apply (EN v x X).
  - right. intros A. destruct (cycle_above es _ L k (or_introl eq_refl)) as (c & Lc & _). exact (A c Lc).
Qed.
End Sort.
