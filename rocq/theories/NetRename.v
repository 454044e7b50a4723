(** Renaming a node. *)
From Verif Require Import Base BaseFacts NDArray NDArrayFacts Node Network NetSpec NetFacts NetInv NetOps.

Definition ren (s new q : string) : string := if String.eqb q s then new else q.

Lemma ren_eq s new : ren s new s = new.
Proof. unfold ren. rewrite eqb_refl_s. reflexivity. Qed.

Lemma ren_neq s new q : q <> s -> ren s new q = q.
Proof. intros H. unfold ren. rewrite eqb_neq_s by exact H. reflexivity. Qed.

Lemma list_set_index s new l k : NoDup l -> index_of s l = Some k -> list_set k new l = map (ren s new) l.
Proof.
  revert k; induction l as [|y l IH]; intros k ND E; [discriminate|].
  apply NoDup_cons_iff in ND. destruct ND as [NI ND]. cbn in E. cbn [map].
  destruct (String.eqb s y) eqn:X.
  - injection E as <-. apply String.eqb_eq in X. subst y. rewrite ren_eq. cbn. f_equal.
    rewrite <- map_id at 1. apply map_ext_in. intros q Iq. symmetry; apply ren_neq. congruence.
  - destruct (index_of s l) as [k'|] eqn:E'; [|discriminate]. injection E as <-. cbn. apply String.eqb_neq in X.
    rewrite ren_neq by congruence. f_equal. apply IH; [exact ND|reflexivity].
Qed.

Lemma map_ren_absent s new l : ~ In s l -> map (ren s new) l = l.
Proof. intros N. rewrite <- map_id. apply map_ext_in. intros q I. apply ren_neq. congruence. Qed.

Lemma graph_add_edge_edges g u v p c : NoDup (gedges g) -> NoDup (gedges (graph_add_edge g u v p c)) /\
  forall e, In e (gedges (graph_add_edge g u v p c)) <-> In e (gedges g) \/ e = (u, v).
Proof.
  intros ND. unfold graph_add_edge. cbn. destruct (existsb (edge_eqb (u, v)) (gedges g)) eqn:X.
  - apply edges_bool in X. split; [exact ND|]. intros e. split; [auto|]. intros [E| ->]; assumption.
  - apply edges_boolF in X. split; [apply NoDup_snoc; assumption|]. intros e. rewrite in_app_iff. cbn. intuition.
Qed.

Lemma readd_ok out i l : forall w,
  dmem (obj_name (whp w) i) (ggraph (wnet w)) = true ->
  (forall o, In o l -> dget (obj_name (whp w) o) (lookup (wnet w)) = Some o /\ dmem (obj_name (whp w) o) (ggraph (wnet w)) = true) ->
  NoDup (gedges (wnet w)) ->
  exists es, readd_edges out i l w =
     (mkW (whp w) (mkNet (lookup (wnet w)) (ggraph (wnet w)) es (bname (wnet w)) (bmeta (wnet w))), Ok tt) /\
    NoDup es /\ forall e, In e es <-> In e (gedges (wnet w)) \/ exists o, In o l /\
      e = if out then (obj_name (whp w) i, obj_name (whp w) o) else (obj_name (whp w) o, obj_name (whp w) i).
Proof.
  induction l as [|o l IH]; intros w Mi L ND.
  - exists (gedges (wnet w)). destruct w as [h [a b c d e]]. cbn. repeat split; try assumption; [auto|].
    intros [H|(o & [] & _)]; exact H.
  - destruct (L o (or_introl eq_refl)) as [Lo Mo]. cbn [readd_edges]. rewrite Lo.
    set (g := if out then graph_add_edge (wnet w) (obj_name (whp w) i) (obj_name (whp w) o) i o
              else graph_add_edge (wnet w) (obj_name (whp w) o) (obj_name (whp w) i) o i).
    set (ed := if out then (obj_name (whp w) i, obj_name (whp w) o) else (obj_name (whp w) o, obj_name (whp w) i)).
    assert (G : lookup g = lookup (wnet w) /\ ggraph g = ggraph (wnet w) /\ bname g = bname (wnet w) /\ bmeta g = bmeta (wnet w) /\
              NoDup (gedges g) /\ forall e, In e (gedges g) <-> In e (gedges (wnet w)) \/ e = ed).
    { unfold g, ed. destruct out.
      - destruct (graph_add_edge_edges (wnet w) (obj_name (whp w) i) (obj_name (whp w) o) i o ND) as [A B].
        rewrite graph_add_edge_present in * by assumption. cbn in *. auto 10.
      - destruct (graph_add_edge_edges (wnet w) (obj_name (whp w) o) (obj_name (whp w) i) o i ND) as [A B].
        rewrite graph_add_edge_present in * by assumption. cbn in *. auto 10. }
    destruct G as (G1 & G2 & G3 & G4 & G5 & G6).
    destruct (IH (with_net w g)) as (es & E & N & S).
    + cbn. rewrite G2. exact Mi.
    + intros o' Io. cbn. rewrite G1, G2. apply L. right; exact Io.
    + exact G5.
    + exists es. cbn in E. rewrite E, G1, G2, G3, G4. split; [reflexivity|]. split; [exact N|].
      intros e. rewrite S. cbn [wnet with_net whp]. rewrite G6. split.
      * intros [[X|X]|(o' & I' & X)]; [left; exact X| |].
        -- right. exists o. split; [left; reflexivity|exact X].
        -- right. exists o'. split; [right; exact I'|exact X].
      * intros [X|(o' & [<-|I'] & X)]; [left; left; exact X|left; right; exact X|].
        right. exists o'. split; assumption.
Qed.

(** The new attributes of the renamed node's children, and of itself. *)
Definition readdressed (s new : string) (i : oid) (n : node) : node :=
  with_parents n (dset new i (ddel s (nparents n))) (map (ren s new) (nporder n)).
Definition moved (w : world) (s new : string) (i j : oid) (m : node) : node :=
  let m1 := if is_child_dec w s j then readdressed s new i m else m in
  if Nat.eq_dec j i then with_name m1 new else m1.

Section Rename.
Context (w : world) (I : inv w) (s new : string) (i : oid) (n : node) (H : holds w s i n).
Context (FR : s = new \/ ~ In new (dkeys (lookup (wnet w)))).

Lemma ren_inj a b : In a (dkeys (lookup (wnet w))) -> In b (dkeys (lookup (wnet w))) ->
  ren s new a = ren s new b -> a = b.
Proof.
  intros A B X. destruct (string_dec a s) as [Ea|Ea], (string_dec b s) as [Eb|Eb].
  - congruence.
  - rewrite Ea, ren_eq, ren_neq in X by exact Eb. exfalso. destruct FR as [E|E]; [congruence|]. apply E. rewrite X. exact B.
  - rewrite Eb, ren_eq, ren_neq in X by exact Ea. exfalso. destruct FR as [E|E]; [congruence|]. apply E. rewrite <- X. exact A.
  - rewrite !ren_neq in X by assumption. exact X.
Qed.

Lemma ren_old a : In a (dkeys (lookup (wnet w))) -> ren s new a = s -> a = s /\ s = new.
Proof.
  intros A. unfold ren. destruct (String.eqb a s) eqn:E.
  - apply String.eqb_eq in E. intros X; auto.
  - apply String.eqb_neq in E. contradiction.
Qed.

Lemma ren_new a : In a (dkeys (lookup (wnet w))) -> ren s new a = new -> a = s.
Proof.
  intros A. unfold ren. destruct (String.eqb a s) eqn:E.
  - apply String.eqb_eq in E. auto.
  - apply String.eqb_neq in E. intros X. exfalso. destruct FR as [E'|E']; [congruence|]. apply E'; congruence.
Qed.

Let C := iv_c w I.

Lemma rename_run : exists es h',
  change_node_name w (ByName s) new =
    (mkW h' (mkNet (dset new i (ddel s (lookup (wnet w)))) (dset new i (ddel s (ggraph (wnet w)))) es
                   (bname (wnet w)) (bmeta (wnet w))), Ok tt) /\
  NoDup es /\
  (forall a b, In (a, b) es <-> exists a0 b0, edge w a0 b0 /\ a = ren s new a0 /\ b = ren s new b0) /\
  (forall j, nth_error h' j = option_map (moved w s new i j) (nth_error (whp w) j)).
Proof.
  destruct (children_objects w C s) as (cs & KC & NDc & IC & MC).
  destruct (parents_objects w C s) as (ps & KP & NDp & IP & MP).
  set (f := fun w c => on_heap w (rename_in_child (whp w) c s new i)).
  assert (RC : forall l w, rename_in_children l s new i w = each f l w).
  { induction l as [|c l IH]; intros w0; [reflexivity|]. cbn [rename_in_children each].
    change (f w0 c) with (on_heap w0 (rename_in_child (whp w0) c s new i)).
    destruct (on_heap w0 (rename_in_child (whp w0) c s new i)) as [w1 [[]|]]; cbn [andthen]; [apply IH|reflexivity]. }
  destruct (each_ok f (fun _ m => readdressed s new i m) w cs) as (h1 & E1 & S1 & P1).
  - exact NDc.
  - intros o Io. apply IC in Io. destruct Io as (x & _ & D). destruct (co_named w C x o D) as (m & Hm & _). congruence.
  - reflexivity.
  - intros w1 o m Io N1 S1 H1 H0. apply IC in Io. destruct Io as (x & Ex & Dx).
    assert (Hx : holds w x o m) by (split; assumption).
    destruct (inv_held_facts w x o m I Hx) as (B1 & B2 & B3 & B4 & B5 & B6).
    assert (K := inv_discrete w I x o m Hx).
    unfold f, on_heap, rename_in_child. rewrite H1, K. cbn [negb].
    assert (D : dget s (nparents m) = Some i) by (apply B4; split; [exact Ex|apply H]).
    unfold dmem. rewrite D. destruct (index_of_In s (nporder m)) as (k & Ek); [apply B2, Ex|].
    rewrite Ek, (list_set_index s new _ k B1 Ek). reflexivity.
  - assert (NN := named w C s i n H).
    unfold change_node_name. cbn [ref_name]. rewrite (proj1 H). unfold obj_name at 1. rewrite (proj2 H), NN.
    rewrite (graph_mem w C). unfold dmem at 1. rewrite (proj1 H). cbn [negb].
    assert (ON : obj_name (whp w) i = s) by (unfold obj_name; rewrite (proj2 H); exact NN).
    rewrite ON, KC, KP, RC, E1. cbn [andthen wnet whp with_net].
    set (n1 := if in_dec Nat.eq_dec i cs then readdressed s new i n else n).
    assert (Hi : nth_error h1 i = Some n1).
    { rewrite P1, (proj2 H). unfold n1. destruct (in_dec Nat.eq_dec i cs); reflexivity. }
    rewrite Hi. cbn [with_heap with_net whp wnet graph_remove_node lookup ref_name].
    unfold dmem at 1. rewrite (proj1 H). cbn [negb].
    set (h' := list_set i (with_name n1 new) h1).
    assert (Ph : forall j, nth_error h' j = option_map (moved w s new i j) (nth_error (whp w) j)).
    { intros j. unfold h'. rewrite nth_error_list_set, P1. unfold moved, n1. destruct (Nat.eq_dec j i) as [->|N].
      - rewrite (proj2 H). cbn. destruct (in_dec Nat.eq_dec i cs) as [X|X], (is_child_dec w s i) as [Y|Y]; try reflexivity; exfalso.
        + apply Y, IC, X.
        + apply X, IC, Y.
      - destruct (in_dec Nat.eq_dec j cs) as [X|X], (is_child_dec w s j) as [Y|Y]; try reflexivity.
        + exfalso; apply Y, IC, X.
        + exfalso; apply X, IC, Y.
        + destruct (nth_error (whp w) j); reflexivity. }
    assert (NMi : obj_name h' i = new).
    { unfold obj_name. rewrite Ph, (proj2 H). cbn. unfold moved. destruct (Nat.eq_dec i i); [|contradiction]. reflexivity. }
    assert (NMo : forall x o, dget x (lookup (wnet w)) = Some o -> obj_name h' o = ren s new x).
    { intros x o D. destruct (Nat.eq_dec o i) as [->|N].
      - assert (x = s) by (eapply (lookup_inj w C); [exact D|apply H]). subst x. rewrite ren_eq. exact NMi.
      - destruct (co_named w C x o D) as (m & Hm & Nm). unfold obj_name. rewrite Ph, Hm. cbn. unfold moved.
        destruct (Nat.eq_dec o i); [contradiction|]. rewrite ren_neq.
        + destruct (is_child_dec w s o); exact Nm.
        + intros ->. destruct H. congruence. }
    assert (MD : dmem new (ddel s (ggraph (wnet w))) = false).
    { apply dmem_nIn. rewrite dkeys_ddel, remove1_In by apply C. intros [X Y]. destruct FR as [Z|Z]; [congruence|].
      apply Z. apply dmem_In. rewrite <- (graph_mem w C). apply dmem_In, X. }
    unfold graph_add_node. cbn [ggraph lookup gedges set_lookup graph_remove_node with_heap with_net wnet whp bname bmeta]. rewrite MD.
    set (L' := dset new i (ddel s (lookup (wnet w)))). set (G' := dset new i (ddel s (ggraph (wnet w)))).
    assert (GL : forall x o, dget x (lookup (wnet w)) = Some o -> dget (ren s new x) L' = Some o).
    { intros x o D. unfold L'. unfold ren. destruct (String.eqb x s) eqn:X.
      - apply String.eqb_eq in X. subst x. rewrite dget_dset_eq. destruct H; congruence.
      - apply String.eqb_neq in X. rewrite dget_dset_neq, dget_ddel_neq; [exact D|exact X|].
        intros ->. destruct FR as [E|E]; [congruence|]. apply E. eapply dget_Some_key, D. }
    assert (GG : forall x o, dget x (lookup (wnet w)) = Some o -> dmem (ren s new x) G' = true).
    { intros x o D. unfold G', dmem. unfold ren. destruct (String.eqb x s) eqn:X.
      - rewrite dget_dset_eq. reflexivity.
      - apply String.eqb_neq in X. rewrite dget_dset_neq, dget_ddel_neq, (graph_get w C), D; [reflexivity|exact X|].
        intros ->. destruct FR as [E|E]; [congruence|]. apply E. eapply dget_Some_key, D. }
    set (E0 := filter _ (gedges (wnet w))).
    set (w5 := mkW h' (mkNet L' G' E0 (bname (wnet w)) (bmeta (wnet w)))).
    change (with_net _ _) with w5.
    assert (A1 : dmem (obj_name (whp w5) i) (ggraph (wnet w5)) = true).
    { cbn. rewrite NMi, <- (ren_eq s new). eapply GG, H. }
    assert (A2 : forall o, (exists x, dget x (lookup (wnet w)) = Some o) -> 
        dget (obj_name (whp w5) o) (lookup (wnet w5)) = Some o /\ dmem (obj_name (whp w5) o) (ggraph (wnet w5)) = true).
    { intros o (x & D). cbn. rewrite (NMo x o D). split; [apply GL, D|eapply GG, D]. }
    destruct (readd_ok true i cs w5) as (es1 & R1 & N1 & X1).
    { exact A1. }
    { intros o Io. apply A2. apply IC in Io. destruct Io as (x & _ & D). exists x; exact D. }
    { cbn. apply NoDup_filter, C. }
    rewrite R1. cbn [andthen].
    destruct (readd_ok false i ps (mkW (whp w5) (mkNet L' G' es1 (bname (wnet w)) (bmeta (wnet w))))) as (es2 & R2 & N2 & X2).
    { exact A1. }
    { intros o Io. apply A2. apply IP in Io. destruct Io as (x & _ & D). exists x; exact D. }
    { exact N1. }
    exists es2, h'. split; [exact R2|]. split; [exact N2|]. split; [|exact Ph].
    intros a b. rewrite X2. cbn [wnet gedges whp]. rewrite X1. cbn [w5 wnet gedges whp]. unfold E0. rewrite removed_edge, NMi.
    split.
    + intros [[(E & Na & Nb)|(o & Io & E)]|(o & Io & E)].
      * exists a, b. rewrite !ren_neq by assumption. auto.
      * injection E as -> ->. apply IC in Io. destruct Io as (x & Ex & Dx). exists s, x. rewrite ren_eq, (NMo x o Dx). auto.
      * injection E as -> ->. apply IP in Io. destruct Io as (x & Ex & Dx). exists x, s. rewrite ren_eq, (NMo x o Dx). auto.
    + intros (a0 & b0 & E & -> & ->). destruct (co_ends w C a0 b0 E) as [Ia Ib].
      destruct (string_dec a0 s) as [->|Na].
      * left. right. destruct (dget_key _ _ Ib) as (o & Do). exists o. split; [apply IC; exists b0; auto|].
        rewrite ren_eq, (NMo b0 o Do). reflexivity.
      * destruct (string_dec b0 s) as [->|Nb].
        -- right. destruct (dget_key _ _ Ia) as (o & Do). exists o. split; [apply IP; exists a0; auto|].
           rewrite ren_eq, (NMo a0 o Do). reflexivity.
        -- left. left. rewrite !ren_neq by assumption. auto.
Qed.

(** What is found under which name afterwards. *)
Section After.
Context (es : list (string * string)) (h' : heap).
Let w' := mkW h' (mkNet (dset new i (ddel s (lookup (wnet w)))) (dset new i (ddel s (ggraph (wnet w)))) es
                   (bname (wnet w)) (bmeta (wnet w))).
Context (NE : NoDup es).
Context (ES : forall a b, In (a, b) es <-> exists a0 b0, edge w a0 b0 /\ a = ren s new a0 /\ b = ren s new b0).
Context (HP : forall j, nth_error h' j = option_map (moved w s new i j) (nth_error (whp w) j)).

Lemma after_lookup v : dget v (lookup (wnet w')) =
  if String.eqb v new then Some i else if String.eqb v s then None else dget v (lookup (wnet w)).
Proof. cbn. rewrite dget_dset, dget_ddel by apply C. reflexivity. Qed.

Lemma after_ren x o : dget x (lookup (wnet w)) = Some o -> dget (ren s new x) (lookup (wnet w')) = Some o.
Proof.
  intros D. rewrite after_lookup. destruct (string_dec x s) as [->|N].
  - rewrite ren_eq, eqb_refl_s. destruct H; congruence.
  - rewrite ren_neq, (eqb_neq_s x s) by exact N. rewrite eqb_neq_s; [exact D|]. intros X. subst x.
    destruct FR as [E|E]; [congruence|]. apply E. eapply dget_Some_key, D.
Qed.

Lemma after_get v o : dget v (lookup (wnet w')) = Some o ->
  exists x, dget x (lookup (wnet w)) = Some o /\ v = ren s new x.
Proof.
  rewrite after_lookup. destruct (String.eqb v new) eqn:E.
  - apply String.eqb_eq in E. intros X. injection X as <-. exists s. rewrite ren_eq. split; [apply H|exact E].
  - destruct (String.eqb v s) eqn:E'; [discriminate|]. apply String.eqb_neq in E'. intros D. exists v.
    rewrite ren_neq by exact E'. auto.
Qed.

Lemma moved_ident j m : holds w (nname m) j m -> nname (moved w s new i j m) = ren s new (nname m) /\
   nkind (moved w s new i j m) = nkind m /\ nvalues (moved w s new i j m) = nvalues m /\
   ncpd (moved w s new i j m) = ncpd m /\ nvalid (moved w s new i j m) = nvalid m /\ nmeta (moved w s new i j m) = nmeta m.
Proof.
  intros Hm. unfold moved. destruct (Nat.eq_dec j i) as [->|N].
  - assert (nname m = s) by (eapply (same_object w C); eassumption). rewrite H0, ren_eq.
    destruct (is_child_dec w s i); repeat split.
  - rewrite ren_neq.
    + destruct (is_child_dec w s j); repeat split.
    + intros E. rewrite E in Hm. destruct H, Hm. congruence.
Qed.

Lemma moved_porder x j m : holds w x j m -> nporder (moved w s new i j m) = map (ren s new) (nporder m).
Proof.
  intros Hm. assert (E : nporder (if is_child_dec w s j then readdressed s new i m else m) = map (ren s new) (nporder m)).
  { destruct (is_child_dec w s j) as [_|NC]; [reflexivity|]. symmetry. apply map_ren_absent.
    intros Is. apply NC. exists x. split; [apply (co_parents w C x j m s Hm), Is|apply Hm]. }
  unfold moved. destruct (Nat.eq_dec j i); exact E.
Qed.

Lemma moved_parents x j m : holds w x j m -> NoDup (dkeys (nparents (moved w s new i j m))) /\
  forall u o, dget u (nparents (moved w s new i j m)) = Some o <->
    exists q, dget q (nparents m) = Some o /\ u = ren s new q.
Proof.
  intros Hm. destruct (inv_held_facts w x j m I Hm) as (B1 & B2 & B3 & B4 & _).
  assert (PL : forall q o, dget q (nparents m) = Some o -> In q (dkeys (lookup (wnet w)))).
  { intros q o D. apply B4 in D. destruct D as [_ D]. eapply dget_Some_key, D. }
  assert (E : forall m1, m1 = (if is_child_dec w s j then readdressed s new i m else m) ->
     NoDup (dkeys (nparents m1)) /\
     forall u o, dget u (nparents m1) = Some o <-> exists q, dget q (nparents m) = Some o /\ u = ren s new q).
  { intros m1 ->. destruct (is_child_dec w s j) as [Ch|NC].
    - assert (Es : edge w s x) by (apply (is_child_iff w s x j m C Hm), Ch).
      assert (Ds : dget s (nparents m) = Some i) by (apply B4; split; [exact Es|apply H]).
      cbn [nparents readdressed with_parents]. split.
      { apply dset_NoDup. rewrite dkeys_ddel. apply remove1_NoDup, B3. }
      intros u o. rewrite dget_dset, dget_ddel by exact B3. destruct (String.eqb u new) eqn:E1.
      + apply String.eqb_eq in E1. subst u. split.
        * intros X. injection X as <-. exists s. rewrite ren_eq. auto.
        * intros (q & D & E). symmetry in E. apply ren_new in E; [|eapply PL, D]. subst q. congruence.
      + apply String.eqb_neq in E1. destruct (String.eqb u s) eqn:E2.
        * apply String.eqb_eq in E2. subst u. split; [discriminate|]. intros (q & D & E). exfalso.
          symmetry in E. apply ren_old in E; [|eapply PL, D]. destruct E as [_ E]. congruence.
        * apply String.eqb_neq in E2. split.
          -- intros D. exists u. rewrite ren_neq by exact E2. auto.
          -- intros (q & D & E). destruct (string_dec q s) as [->|Nq]; [rewrite ren_eq in E; congruence|].
             rewrite ren_neq in E by exact Nq. congruence.
    - split; [exact B3|]. intros u o.
      assert (NS : forall q o, dget q (nparents m) = Some o -> q <> s).
      { intros q o' D ->. apply NC. exists x. split; [apply B4 in D; apply D|apply Hm]. }
      split.
      + intros D. exists u. rewrite ren_neq by (eapply NS, D). auto.
      + intros (q & D & ->). rewrite ren_neq by (eapply NS, D). exact D. }
  unfold moved. destruct (E _ eq_refl) as [E1 E2]. destruct (Nat.eq_dec j i); split; assumption.
Qed.

Lemma after_holds v j m' : holds w' v j m' -> exists x m, holds w x j m /\ v = ren s new x /\ m' = moved w s new i j m.
Proof.
  intros [D E]. apply after_get in D. destruct D as (x & D & ->). cbn in E. rewrite HP in E.
  destruct (nth_error (whp w) j) as [m|] eqn:Hm; cbn in E; [|discriminate]. exists x, m.
  split; [split; assumption|]. split; congruence.
Qed.

Lemma after_edge a b : edge w' a b <-> exists a0 b0, edge w a0 b0 /\ a = ren s new a0 /\ b = ren s new b0.
Proof. apply ES. Qed.

Lemma after_size x : In x (dkeys (lookup (wnet w))) -> size w' (ren s new x) = size w x.
Proof.
  intros Ix. destruct (in_lookup w C x Ix) as (o & m & Hm). unfold size. rewrite (after_ren x o (proj1 Hm)), (proj1 Hm).
  cbn [whp w']. rewrite HP, (proj2 Hm). cbn.
  assert (Hm' := Hm). rewrite <- (named w C x o m Hm) in Hm'. destruct (moved_ident o m Hm') as (_ & _ & -> & _). reflexivity.
Qed.

Lemma after_inv : inv w'.
Proof.
  assert (Cw : consistent w').
  { constructor.
    - cbn. apply dset_NoDup. rewrite dkeys_ddel. apply remove1_NoDup, C.
    - cbn. apply dset_NoDup. rewrite dkeys_ddel. apply remove1_NoDup, C.
    - intros v j. rewrite after_lookup. cbn. rewrite dget_dset, dget_ddel, (graph_get w C) by apply C. tauto.
    - intros v j D. apply after_get in D. destruct D as (x & D & ->). destruct (co_named w C x j D) as (m & Hm & Nm).
      exists (moved w s new i j m). cbn. rewrite HP, Hm. split; [reflexivity|].
      destruct (moved_ident j m) as (-> & _); [split; [rewrite Nm; exact D|exact Hm]|]. rewrite Nm. reflexivity.
    - exact NE.
    - intros a b E. apply after_edge in E. destruct E as (a0 & b0 & E & -> & ->).
      destruct (co_ends w C a0 b0 E) as [Ia Ib]. destruct (dget_key _ _ Ia) as (oa & Da). destruct (dget_key _ _ Ib) as (ob & Db).
      split; eapply dget_Some_key, after_ren; eassumption.
    - intros v j m' Hm'. apply after_holds in Hm'. destruct Hm' as (x & m & Hm & -> & ->). rewrite (moved_porder x j m Hm).
      assert (IL : forall q, In q (nporder m) -> In q (dkeys (lookup (wnet w)))).
      { intros q Iq. apply (co_parents w C x j m q Hm) in Iq. apply (co_ends w C _ _ Iq). }
      pose proof (co_order w C x j m Hm) as ND. clear -ND IL FR. induction (nporder m) as [|q l IH]; [constructor|].
      apply NoDup_cons_iff in ND. destruct ND as [NI ND]. cbn. constructor.
      + rewrite in_map_iff. intros (q' & E & I'). apply ren_inj in E; [|apply IL; right; exact I'|apply IL; left; reflexivity].
        subst; contradiction.
      + apply IH; [|exact ND]. intros; apply IL; right; assumption.
    - intros v j m' u Hm'. apply after_holds in Hm'. destruct Hm' as (x & m & Hm & -> & ->). rewrite (moved_porder x j m Hm).
      rewrite after_edge, in_map_iff. split.
      + intros (q & <- & Iq). exists q, x. split; [apply (co_parents w C x j m q Hm), Iq|auto].
      + intros (a0 & b0 & E & -> & Eb). apply ren_inj in Eb; [|eapply holds_in, Hm|apply (co_ends w C _ _ E)]. subst b0.
        exists a0. split; [reflexivity|]. apply (co_parents w C x j m a0 Hm), E.
    - intros v j m' Hm'. apply after_holds in Hm'. destruct Hm' as (x & m & Hm & -> & ->). apply (moved_parents x j m Hm).
    - intros v j m' u o Hm'. apply after_holds in Hm'. destruct Hm' as (x & m & Hm & -> & ->).
      rewrite (proj2 (moved_parents x j m Hm)), after_edge. split.
      + intros (q & D & ->). apply (co_pdict w C x j m q o Hm) in D. destruct D as [E D].
        split; [exists q, x; auto|apply after_ren, D].
      + intros [(a0 & b0 & E & -> & Eb) D]. apply ren_inj in Eb; [|eapply holds_in, Hm|apply (co_ends w C _ _ E)]. subst b0.
        exists a0. split; [|reflexivity]. apply (co_pdict w C x j m a0 o Hm). split; [exact E|].
        apply after_get in D. destruct D as (x0 & D & Ex). apply ren_inj in Ex; [congruence|apply (co_ends w C _ _ E)|eapply dget_Some_key, D]. }
  assert (Fw : fitting w').
  { intros v j m' Hm'. apply after_holds in Hm'. destruct Hm' as (x & m & Hm & -> & ->).
    assert (Hm' := Hm). rewrite <- (named w C x j m Hm) in Hm'.
    destruct (moved_ident j m Hm') as (_ & Kd & Vl & Tb & _). destruct (iv_f w I x j m Hm) as [K S].
    split; [congruence|]. rewrite Tb, S. unfold right_shape. rewrite Vl, (moved_porder x j m Hm), map_map. f_equal.
    apply map_ext_in. intros q Iq. symmetry. apply after_size. apply (co_parents w C x j m q Hm) in Iq. apply (co_ends w C _ _ Iq). }
  constructor; try assumption.
  intros j m' E K. cbn in E. rewrite HP in E. destruct (nth_error (whp w) j) as [m|] eqn:Hm; cbn in E; [|discriminate].
  injection E as <-.
  destruct (free_or_held w j C) as [(x & m0 & Hx)|FRE].
  - assert (m0 = m) by (destruct Hx; congruence). subst m0.
    assert (Hw : holds w' (ren s new x) j (moved w s new i j m)).
    { split; [apply after_ren, Hx|]. cbn. rewrite HP, Hm. reflexivity. }
    eapply (sound_of w' Cw Fw); [|exact Hw]. intros v k m' Hk. apply after_holds in Hk.
    destruct Hk as (x' & mk & Hmk & -> & ->). assert (Hk := Hmk). rewrite <- (named w C x' k mk Hmk) in Hk.
    destruct (moved_ident k mk Hk) as (_ & _ & _ & -> & _).
    apply (inv_held_facts w x' k mk I Hmk).
  - unfold moved in *. destruct (Nat.eq_dec j i) as [->|N]; [exfalso; eapply FRE, H|].
    destruct (is_child_dec w s j) as [(x & _ & D)|NC]; [exfalso; eapply FRE, D|]. apply (iv_s w I j m Hm K).
Qed.
End After.
End Rename.

Lemma inv_rename w s new : inv w -> (s = new \/ ~ In new (dkeys (lookup (wnet w)))) ->
  inv (fst (change_node_name w (ByName s) new)).
Proof.
  intros I FR. pose proof (iv_c w I) as C. destruct (dget s (lookup (wnet w))) as [i|] eqn:D.
  - destruct (co_named w C s i D) as (n & Hn & _).
    destruct (rename_run w I s new i n (conj D Hn) FR) as (es & h' & -> & A & B & P). cbn [fst].
    exact (after_inv w I s new i n (conj D Hn) FR es h' A B P).
  - unfold change_node_name. cbn [ref_name]. rewrite D. exact I.
Qed.
