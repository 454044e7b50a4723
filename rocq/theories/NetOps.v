(** Edges, value changes and node removal: what the calls do, and that they keep
    the invariant. *)
From Verif Require Import Base BaseFacts NDArray NDArrayFacts Node Network NetSpec NetFacts NetInv.

Definition ident (n : node) := (nkind n, nname n).

Lemma inv_build w w' : inv w ->
  NoDup (dkeys (lookup (wnet w'))) -> NoDup (dkeys (ggraph (wnet w'))) ->
  (forall v i, dget v (ggraph (wnet w')) = Some i <-> dget v (lookup (wnet w')) = Some i) ->
  (forall j, option_map ident (nth_error (whp w) j) = option_map ident (nth_error (whp w') j)) ->
  (forall v i, dget v (lookup (wnet w')) = Some i -> dget v (lookup (wnet w)) = Some i) ->
  NoDup (gedges (wnet w')) ->
  (forall u v, edge w' u v -> In u (dkeys (lookup (wnet w'))) /\ In v (dkeys (lookup (wnet w')))) ->
  (forall v i n', holds w' v i n' -> NoDup (nporder n') /\ (forall u, In u (nporder n') <-> edge w' u v) /\
     NoDup (dkeys (nparents n')) /\
     (forall u o, dget u (nparents n') = Some o <-> edge w' u v /\ dget u (lookup (wnet w')) = Some o) /\
     tshape (ncpd n') = own_dims n' ++ map (size w') (nporder n') /\
     exists int a, ncpd n' = TArr int a /\ real_array a) ->
  (forall i n', nth_error (whp w') i = Some n' -> nth_error (whp w) i = Some n' \/ sound n' \/ exists v, holds w' v i n') ->
  inv w'.
Proof.
  intros I NL NG SM ID LK NE EN HN FR. pose proof (iv_c w I) as C.
  assert (NM : forall v i, dget v (lookup (wnet w')) = Some i -> exists n', nth_error (whp w') i = Some n' /\
            nname n' = v /\ nkind n' = KDiscrete).
  { intros v i D. apply LK in D. destruct (co_named w C v i D) as (n & H & E). specialize (ID i). rewrite H in ID.
    destruct (nth_error (whp w') i) as [n'|]; cbn in ID; [|discriminate]. exists n'. unfold ident in ID.
    assert (K := inv_discrete w I v i n (conj D H)). repeat split; congruence. }
  assert (Cw : consistent w').
  { constructor; try assumption.
    - intros v i D. destruct (NM v i D) as (n' & A & B & _). eauto.
    - intros v i n' H. apply (HN v i n' H).
    - intros v i n' u H. apply (HN v i n' H).
    - intros v i n' H. apply (HN v i n' H).
    - intros v i n' u o H. apply (HN v i n' H). }
  assert (Fw : fitting w').
  { intros v i n' H. assert (K : nkind n' = KDiscrete).
    { destruct H as [D H]. destruct (NM v i D) as (m & A & _ & B). congruence. }
    split; [exact K|]. rewrite right_shape_own by exact K. apply (HN v i n' H). }
  constructor; try assumption.
  intros i n' H K. destruct (FR i n' H) as [Old|[So|(v & Hv)]].
  - apply (iv_s w I i n' Old K).
  - exact So.
  - eapply (sound_of w' Cw Fw); [|exact Hv]. intros v' j m Hm. apply (HN v' j m Hm).
Qed.

Lemma edges_bool e l : existsb (edge_eqb e) l = true <-> In e l.
Proof.
  rewrite existsb_exists. unfold edge_eqb. destruct e as [a b]. cbn. split.
  - intros ([a' b'] & I & E). cbn in E. apply andb_true_iff in E. destruct E as [E1 E2].
    apply String.eqb_eq in E1, E2. subst. exact I.
  - intros I. exists (a, b). split; [exact I|]. cbn. rewrite !eqb_refl_s. reflexivity.
Qed.

Lemma edges_boolF e l : existsb (edge_eqb e) l = false <-> ~ In e l.
Proof. rewrite <- edges_bool. destruct (existsb _ _); split; congruence. Qed.

Lemma graph_add_edge_present g u v p c : dmem u (ggraph g) = true -> dmem v (ggraph g) = true ->
  graph_add_edge g u v p c = mkNet (lookup g) (ggraph g)
    (if existsb (edge_eqb (u, v)) (gedges g) then gedges g else gedges g ++ [(u, v)]) (bname g) (bmeta g).
Proof. intros A B. unfold graph_add_edge, graph_add_node. cbn. rewrite A. cbn. rewrite B. reflexivity. Qed.

(** Adding an edge. *)
Definition grown (sz : string -> nat) (u : string) (p : oid) (n : node) : node :=
  reset (with_parents n (dset u p (nparents n)) (nporder n ++ [u])) (own_dims n ++ map sz (nporder n ++ [u])).

Lemma add_edge_run w u v p m c n : inv w -> holds w u p m -> holds w v c n -> ~ edge w u v ->
  add_edge w u v = (mkW (list_set c (grown (size w) u p n) (whp w))
     (mkNet (lookup (wnet w)) (ggraph (wnet w)) (gedges (wnet w) ++ [(u, v)]) (bname (wnet w)) (bmeta (wnet w))), Ok tt).
Proof.
  intros I Hu Hv NE. pose proof (iv_c w I) as C.
  assert (Mu : dmem u (ggraph (wnet w)) = true) by (rewrite (graph_mem w C); unfold dmem; destruct Hu as [-> _]; reflexivity).
  assert (Mv : dmem v (ggraph (wnet w)) = true) by (rewrite (graph_mem w C); unfold dmem; destruct Hv as [-> _]; reflexivity).
  unfold add_edge. rewrite Mu, Mv. cbn [andb].
  assert (Nu := named w C u p m Hu). assert (Nv := named w C v c n Hv).
  assert (K := inv_discrete w I v c n Hv). assert (R := inv_resolved w v c n I Hv).
  destruct Hu as [Du Eu], Hv as [Dv Ev]. rewrite Du, Dv. unfold obj_name. rewrite Eu, Ev, Nu, Nv.
  rewrite graph_add_edge_present by assumption.
  destruct (existsb _ _) eqn:X; [apply edges_bool in X; contradiction|].
  unfold on_heap, add_parent. cbn [whp with_net]. rewrite Ev, Eu, K, Nu.
  rewrite (refresh_ok _ (size w) _ _ n).
  - reflexivity.
  - exact Ev.
  - reflexivity.
  - cbn. congruence.
  - intros q Iq. cbn in Iq. apply in_app_or in Iq. cbn [nparents with_parents].
    destruct Iq as [Iq|[<-|[]]].
    + assert (q <> u).
      { intros ->. apply NE. apply (co_parents w C v c n u (conj Dv Ev)), Iq. }
      rewrite dget_dset_neq by assumption. apply R, Iq.
    + exists p, m. rewrite dget_dset_eq. split; [reflexivity|]. split; [exact Eu|]. split.
      * left. apply (inv_discrete w I u p m). split; assumption.
      * symmetry. apply (size_get w u p m). split; assumption.
Qed.

Lemma size_same w w' : lookup (wnet w') = lookup (wnet w) ->
  (forall j, option_map nvalues (nth_error (whp w) j) = option_map nvalues (nth_error (whp w') j)) ->
  forall u, size w' u = size w u.
Proof.
  intros N S u. unfold size. rewrite N. destruct (dget u _) as [i|]; [|reflexivity].
  specialize (S i). destruct (nth_error (whp w) i), (nth_error (whp w') i); cbn in S; try discriminate; [|reflexivity]. congruence.
Qed.

Lemma set_same_attr {B} (f : node -> B) h c n n' : nth_error h c = Some n -> f n' = f n ->
  forall j, option_map f (nth_error h j) = option_map f (nth_error (list_set c n' h) j).
Proof.
  intros H E j. rewrite nth_error_list_set. destruct (Nat.eq_dec j c) as [->|]; [|reflexivity]. rewrite H. cbn. congruence.
Qed.

Lemma inv_held_facts w v i n : inv w -> holds w v i n ->
  NoDup (nporder n) /\ (forall u, In u (nporder n) <-> edge w u v) /\ NoDup (dkeys (nparents n)) /\
  (forall u o, dget u (nparents n) = Some o <-> edge w u v /\ dget u (lookup (wnet w)) = Some o) /\
  tshape (ncpd n) = own_dims n ++ map (size w) (nporder n) /\
  exists int a, ncpd n = TArr int a /\ real_array a.
Proof.
  intros I H. pose proof (iv_c w I) as C. destruct (iv_f w I v i n H) as [K S].
  split; [eapply C, H|]. split; [intros u; apply (co_parents w C v i n u H)|]. split; [eapply C, H|].
  split; [intros u o; apply (co_pdict w C v i n u o H)|]. split; [rewrite S; apply right_shape_own, K|].
  destruct H as [_ H]. apply (iv_s w I i n H K).
Qed.

(** One node [v] of the network changes, with edges to it. *)
Lemma inv_one w v c n n' es : inv w -> holds w v c n ->
  face n' = face n -> NoDup es ->
  (forall a b, In (a, b) es -> In a (dkeys (lookup (wnet w)))) ->
  (forall a b, b <> v -> (In (a, b) es <-> edge w a b)) ->
  NoDup (nporder n') -> (forall u, In u (nporder n') <-> In (u, v) es) -> NoDup (dkeys (nparents n')) ->
  (forall u o, dget u (nparents n') = Some o <-> In (u, v) es /\ dget u (lookup (wnet w)) = Some o) ->
  tshape (ncpd n') = own_dims n' ++ map (size w) (nporder n') ->
  (exists int a, ncpd n' = TArr int a /\ real_array a) ->
  inv (mkW (list_set c n' (whp w)) (mkNet (lookup (wnet w)) (ggraph (wnet w)) es (bname (wnet w)) (bmeta (wnet w)))).
Proof.
  intros I H F NE EL EO A1 A2 A3 A4 A5 A6. pose proof (iv_c w I) as C.
  set (w' := mkW _ _).
  assert (SZ : forall u, size w' u = size w u).
  { apply size_same; [reflexivity|]. cbn. eapply set_same_attr; [apply H|]. unfold face in F. congruence. }
  apply (inv_build w w' I); try apply C.
  - cbn. eapply set_same_attr; [apply H|]. unfold face in F. unfold ident. congruence.
  - intros ? ? D; exact D.
  - exact NE.
  - intros a b E. split; [apply (EL a b E)|]. destruct (string_dec b v) as [->|N].
    + apply (holds_in w v c n H).
    + cbn in E. apply (EO a b N) in E. apply (co_ends w C _ _ E).
  - intros x j m [D M]. cbn in D, M. rewrite nth_error_list_set in M.
    rewrite (map_ext _ _ SZ). destruct (Nat.eq_dec j c) as [->|NJ].
    + assert (x = v) by (eapply (lookup_inj w C); [exact D|apply H]). subst x.
      destruct H as [_ Hn]. rewrite Hn in M. injection M as <-. repeat (split; [assumption|]). assumption.
    + assert (x <> v).
      { intros ->. destruct H as [D' _]. cbn in D. congruence. }
      destruct (inv_held_facts w x j m I (conj D M)) as (B1 & B2 & B3 & B4 & B5 & B6).
      split; [exact B1|]. split; [intros u; rewrite B2; symmetry; apply EO; assumption|]. split; [exact B3|].
      split; [|split; assumption]. intros u o. rewrite B4. change (edge w' u x) with (In (u, x) es). rewrite EO by assumption. tauto.
  - intros j m M. cbn in M. rewrite nth_error_list_set in M. destruct (Nat.eq_dec j c) as [->|NJ]; [|left; exact M].
    right. right. exists v. split; [apply H|]. cbn. rewrite nth_error_list_set. destruct (Nat.eq_dec c c); [exact M|contradiction].
Qed.

Lemma NoDup_snoc {A} (l : list A) x : NoDup l -> ~ In x l -> NoDup (l ++ [x]).
Proof. intros ND NI. apply NoDup_Add with (a := x) (l := l); [|split; assumption]. rewrite <- (app_nil_r l) at 1. apply Add_app. Qed.

Lemma inv_grown w u v p m c n : inv w -> holds w u p m -> holds w v c n -> ~ edge w u v ->
  inv (mkW (list_set c (grown (size w) u p n) (whp w))
     (mkNet (lookup (wnet w)) (ggraph (wnet w)) (gedges (wnet w) ++ [(u, v)]) (bname (wnet w)) (bmeta (wnet w)))).
Proof.
  intros I Hu Hv NE. pose proof (iv_c w I) as C. destruct (inv_held_facts w v c n I Hv) as (B1 & B2 & B3 & B4 & B5 & B6).
  apply (inv_one w v c n); try assumption.
  - reflexivity.
  - apply NoDup_snoc; [apply C|exact NE].
  - intros a b E. apply in_app_or in E. destruct E as [E|[E|[]]]; [apply (co_ends w C _ _ E)|].
    injection E as <- <-. eapply holds_in, Hu.
  - intros a b N. rewrite in_app_iff. cbn. split; [intros [E|[E|[]]]; [exact E|congruence]|auto].
  - cbn. apply NoDup_snoc; [exact B1|]. rewrite B2. exact NE.
  - intros q. cbn. rewrite !in_app_iff. cbn. rewrite B2. unfold edge. split; (intros [E|[E|[]]]; [left; exact E|right; left; congruence]).
  - cbn. apply dset_NoDup, B3.
  - intros q o. cbn. rewrite dget_dset, in_app_iff. cbn. destruct (String.eqb q u) eqn:E.
    + apply String.eqb_eq in E. subst q. destruct Hu as [-> _]. intuition.
    + apply String.eqb_neq in E. rewrite B4. unfold edge. split; [tauto|]. intros [[X|[X|[]]] Y]; [tauto|congruence].
  - reflexivity.
  - do 2 eexists. split; [reflexivity|apply real_full].
Qed.

Lemma inv_add_edge w u v : inv w -> ~ edge w u v -> inv (fst (add_edge w u v)).
Proof.
  intros I NE. pose proof (iv_c w I) as C.
  destruct (In_dec_s u (dkeys (lookup (wnet w)))) as [Iu|Nu].
  - destruct (In_dec_s v (dkeys (lookup (wnet w)))) as [Iv|Nv].
    + destruct (in_lookup w C u Iu) as (p & m & Hu). destruct (in_lookup w C v Iv) as (c & n & Hv).
      rewrite (add_edge_run w u v p m c n) by assumption. eapply inv_grown; eassumption.
    + unfold add_edge. rewrite !(graph_mem w C), (proj2 (dmem_nIn v _) Nv), andb_false_r. exact I.
  - unfold add_edge. rewrite !(graph_mem w C), (proj2 (dmem_nIn u _) Nu). exact I.
Qed.

(** Removing a parent. *)
Definition shrunk (sz : string -> nat) (v : string) (n : node) : node :=
  reset (with_parents n (ddel v (nparents n)) (remove1 v (nporder n))) (own_dims n ++ map sz (remove1 v (nporder n))).

Lemma remove_parent_run w h v p m x c n : inv w -> similar (whp w) h -> holds w v p m -> holds w x c n ->
  nth_error h c = Some n -> edge w v x ->
  remove_parent h c p = (list_set c (shrunk (size w) v n) h, Ok tt).
Proof.
  intros I S Hv Hx Hc E. pose proof (iv_c w I) as C.
  assert (Nv := named w C v p m Hv). assert (K := inv_discrete w I x c n Hx).
  destruct (inv_held_facts w x c n I Hx) as (B1 & B2 & B3 & B4 & B5 & B6).
  destruct (similar_get _ _ _ _ S (proj2 Hv)) as (m' & Hm & Fm).
  unfold remove_parent. rewrite Hc, Hm, K. assert (nname m' = v) by (unfold face in Fm; congruence). rewrite H.
  assert (D : dget v (nparents n) = Some p) by (apply B4; split; [exact E|apply Hv]).
  unfold dmem. rewrite D. assert (M : mem v (nporder n) = true) by (apply mem_In, B2, E). rewrite M.
  rewrite (refresh_ok _ (size w) _ _ n).
  - reflexivity.
  - exact Hc.
  - reflexivity.
  - cbn; congruence.
  - eapply resolved_similar; [exact S|]. intros q Iq. cbn in Iq |- *. apply remove1_In in Iq; [|exact B1].
    destruct Iq as [Iq NQ]. rewrite dget_ddel_neq by exact NQ. eapply inv_resolved; eassumption.
Qed.

Lemma dget_ddel k k' (d : dict oid) : NoDup (dkeys d) -> dget k (ddel k' d) = if String.eqb k k' then None else dget k d.
Proof.
  intros ND. destruct (String.eqb k k') eqn:E.
  - apply String.eqb_eq in E. subst. apply dget_ddel_eq, ND.
  - apply String.eqb_neq in E. apply dget_ddel_neq, E.
Qed.

Lemma remove_edge_run w u v p m c n : inv w -> holds w u p m -> holds w v c n -> edge w u v ->
  remove_edge w u v = (mkW (list_set c (shrunk (size w) u n) (whp w))
     (graph_remove_edge (wnet w) u v), Ok tt).
Proof.
  intros I Hu Hv E. pose proof (iv_c w I) as C.
  assert (Mu : dmem u (ggraph (wnet w)) = true) by (rewrite (graph_mem w C); unfold dmem; destruct Hu as [-> _]; reflexivity).
  assert (Mv : dmem v (ggraph (wnet w)) = true) by (rewrite (graph_mem w C); unfold dmem; destruct Hv as [-> _]; reflexivity).
  unfold remove_edge. rewrite Mu, Mv. cbn [andb].
  assert (Hv' := Hv). assert (Hu' := Hu). destruct Hu' as [Du Eu], Hv' as [Dv Ev]. rewrite Du, Dv.
  unfold on_heap. rewrite (remove_parent_run w (whp w) u p m v c n); try assumption; [|apply similar_refl].
  cbn [fst snd andthen wnet with_heap]. apply edges_bool in E. rewrite E. reflexivity.
Qed.

Lemma remove_edge_absent w u v : inv w -> ~ edge w u v -> fst (remove_edge w u v) = w /\
  (In u (dkeys (lookup (wnet w))) -> In v (dkeys (lookup (wnet w))) -> snd (remove_edge w u v) = Err KeyError).
Proof.
  intros I NE. pose proof (iv_c w I) as C. unfold remove_edge.
  rewrite !(graph_mem w C). destruct (dmem u (lookup (wnet w))) eqn:Mu.
  - destruct (dmem v (lookup (wnet w))) eqn:Mv; cbn [andb].
    + apply dmem_In in Mu, Mv. destruct (in_lookup w C u Mu) as (p & m & Hu). destruct (in_lookup w C v Mv) as (c & n & Hv).
      assert (Nu := named w C u p m Hu). assert (K := inv_discrete w I v c n Hv).
      assert (ND : dmem u (nparents n) = false).
      { unfold dmem. destruct (dget u (nparents n)) as [o|] eqn:D; [|reflexivity].
        apply (co_pdict w C v c n u o Hv) in D. tauto. }
      destruct Hu as [Du Eu], Hv as [Dv Ev]. rewrite Du, Dv.
      unfold on_heap, remove_parent. rewrite Ev, Eu, K, Nu, ND. cbn. destruct w; split; reflexivity.
    + split; [reflexivity|]. intros _ Iv. apply dmem_In in Iv. congruence.
  - split; [reflexivity|]. intros Iu. apply dmem_In in Iu. congruence.
Qed.

Lemma inv_shrunk w u v p m c n : inv w -> holds w u p m -> holds w v c n -> edge w u v ->
  inv (mkW (list_set c (shrunk (size w) u n) (whp w)) (graph_remove_edge (wnet w) u v)).
Proof.
  intros I Hu Hv E. pose proof (iv_c w I) as C. destruct (inv_held_facts w v c n I Hv) as (B1 & B2 & B3 & B4 & B5 & B6).
  assert (FI : forall a b, In (a, b) (filter (fun e => negb (edge_eqb (u, v) e)) (gedges (wnet w))) <-> edge w a b /\ (a, b) <> (u, v)).
  { intros a b. rewrite filter_In, negb_true_iff. unfold edge. unfold edge_eqb. cbn. rewrite andb_false_iff, !String.eqb_neq.
    split; intros [X Y]; (split; [exact X|]).
    - intros Z. injection Z as -> ->. tauto.
    - destruct (string_dec u a) as [->|]; [|left; assumption]. right. intros ->; apply Y; reflexivity. }
  apply (inv_one w v c n); try assumption.
  - reflexivity.
  - apply NoDup_filter, C.
  - intros a b X. apply FI in X. apply (co_ends w C a b), X.
  - intros a b N. rewrite FI. split; [tauto|]. intros X; split; [exact X|congruence].
  - cbn. apply remove1_NoDup, B1.
  - intros q. cbn. rewrite remove1_In, B2, FI by exact B1. split; intros [X Y]; (split; [exact X|congruence]).
  - change (NoDup (dkeys (ddel u (nparents n)))). rewrite dkeys_ddel. apply remove1_NoDup, B3.
  - intros q o. cbn. rewrite dget_ddel, FI by exact B3. destruct (String.eqb q u) eqn:X.
    + apply String.eqb_eq in X. subst q. split; [discriminate|]. intros [[_ Y] _]. congruence.
    + apply String.eqb_neq in X. rewrite B4. split; [intros [Y Z]; split; [split; [exact Y|congruence]|exact Z]|tauto].
  - reflexivity.
  - do 2 eexists. split; [reflexivity|apply real_full].
Qed.

Lemma inv_remove_edge w u v : inv w -> inv (fst (remove_edge w u v)).
Proof.
  intros I. pose proof (iv_c w I) as C.
  destruct (existsb (edge_eqb (u, v)) (gedges (wnet w))) eqn:X.
  - apply edges_bool in X. destruct (co_ends w C u v X) as [Iu Iv].
    destruct (in_lookup w C u Iu) as (p & m & Hu). destruct (in_lookup w C v Iv) as (c & n & Hv).
    rewrite (remove_edge_run w u v p m c n) by assumption. eapply inv_shrunk; eassumption.
  - apply edges_boolF in X. rewrite (proj1 (remove_edge_absent w u v I X)). exact I.
Qed.

(** Removing a node. *)
Definition is_child (w : world) (v : string) (j : oid) : Prop :=
  exists x, edge w v x /\ dget x (lookup (wnet w)) = Some j.

Lemma remove_node_run w v p m : inv w -> holds w v p m ->
  exists h', remove_node w v = (mkW h' (set_lookup (graph_remove_node (wnet w) v) (ddel v (lookup (wnet w)))), Ok tt) /\
    similar (whp w) h' /\
    (forall j n, is_child w v j -> nth_error (whp w) j = Some n -> nth_error h' j = Some (shrunk (size w) v n)) /\
    (forall j, ~ is_child w v j -> nth_error h' j = nth_error (whp w) j).
Proof.
  intros I Hv. pose proof (iv_c w I) as C.
  destruct (children_objects w C v) as (os & KO & ND & IO & _).
  set (f := fun w c => match dget v (lookup (wnet w)) with
               | None => raise KeyError w
               | Some p => on_heap w (remove_parent (whp w) c p) end).
  destruct (each_ok f (fun _ n => shrunk (size w) v n) w os) as (h' & E & S & P).
  - exact ND.
  - intros o Io. apply IO in Io. destruct Io as (x & _ & D). destruct (co_named w C x o D) as (n & H & _). congruence.
  - reflexivity.
  - intros w1 o n Io N1 S1 H1 H0. apply IO in Io. destruct Io as (x & Ex & Dx).
    unfold f. rewrite N1, (proj1 Hv). unfold on_heap.
    rewrite (remove_parent_run w (whp w1) v p m x o n); try assumption; [reflexivity|split; assumption].
  - exists h'. split; [|split; [exact S|split]].
    + unfold remove_node. rewrite (graph_mem w C). unfold dmem at 1. rewrite (proj1 Hv).
      assert (FK : for_keys f (succs (wnet w) v) w = each f os w).
      { apply (for_keys_each f w); [exact KO| |reflexivity]. intros w1 o w1' _ N F1. unfold f in F1.
        destruct (dget v (lookup (wnet w1))); [|discriminate]. unfold on_heap in F1. injection F1 as <- _. exact N. }
      fold f. rewrite FK, E. cbn [andthen wnet whp with_net graph_remove_node lookup].
      unfold dmem. rewrite (proj1 Hv). reflexivity.
    + intros j n Ch Hj. rewrite P. destruct (in_dec Nat.eq_dec j os) as [_|X]; [rewrite Hj; reflexivity|].
      exfalso; apply X, IO, Ch.
    + intros j NC. rewrite P. destruct (in_dec Nat.eq_dec j os) as [X|_]; [|reflexivity]. exfalso; apply NC, IO, X.
Qed.

Lemma removed_edge w v : forall a b,
  In (a, b) (filter (fun e => negb (String.eqb v (fst e)) && negb (String.eqb v (snd e))) (gedges (wnet w)))
  <-> edge w a b /\ a <> v /\ b <> v.
Proof.
  intros a b. rewrite filter_In, andb_true_iff, !negb_true_iff, !String.eqb_neq. cbn. unfold edge. intuition congruence.
Qed.

Lemma is_child_iff w v x j n : consistent w -> holds w x j n -> (is_child w v j <-> edge w v x).
Proof.
  intros C H. split.
  - intros (y & E & D). replace x with y; [exact E|]. eapply (lookup_inj w C); [exact D|apply H].
  - intros E. exists x. split; [exact E|apply H].
Qed.

Lemma is_child_dec w v j : {is_child w v j} + {~ is_child w v j}.
Proof.
  destruct (existsb (fun e => String.eqb v (fst e) && match dget (snd e) (lookup (wnet w)) with
            | Some i => Nat.eqb i j | None => false end) (gedges (wnet w))) eqn:X.
  - left. apply existsb_exists in X. destruct X as ([a b] & I & E). cbn in E. apply andb_true_iff in E. destruct E as [E1 E2].
    apply String.eqb_eq in E1. subst a. exists b. split; [exact I|]. destruct (dget b _) as [i|]; [|discriminate].
    apply Nat.eqb_eq in E2. congruence.
  - right. intros (x & E & D). assert (existsb (fun e => String.eqb v (fst e) && match dget (snd e) (lookup (wnet w)) with
            | Some i => Nat.eqb i j | None => false end) (gedges (wnet w)) = true); [|congruence].
    apply existsb_exists. exists (v, x). split; [exact E|]. cbn. rewrite eqb_refl_s, D, Nat.eqb_refl. reflexivity.
Qed.

Lemma inv_remove_node w v : inv w -> inv (fst (remove_node w v)).
Proof.
  intros I. pose proof (iv_c w I) as C. destruct (dmem v (lookup (wnet w))) eqn:M.
  2:{ unfold remove_node. rewrite (graph_mem w C), M. exact I. }
  apply dmem_In in M. destruct (in_lookup w C v M) as (p & m & Hv).
  destruct (remove_node_run w v p m I Hv) as (h' & -> & S & PC & PN). cbn [fst].
  set (w' := mkW h' _).
  assert (L : lookup (wnet w') = ddel v (lookup (wnet w))) by reflexivity.
  assert (G : ggraph (wnet w') = ddel v (ggraph (wnet w))) by reflexivity.
  assert (ED : forall a b, edge w' a b <-> edge w a b /\ a <> v /\ b <> v) by (intros; apply removed_edge).
  assert (SZ : forall u, u <> v -> size w' u = size w u).
  { intros u N. unfold size. rewrite L, dget_ddel_neq by exact N. destruct (dget u _) as [i|]; [|reflexivity].
    specialize (S i). cbn. destruct (nth_error (whp w) i), (nth_error h' i); cbn in S; try discriminate; [|reflexivity].
    unfold face in S. congruence. }
  assert (DN : forall x, dget x (lookup (wnet w')) = if String.eqb x v then None else dget x (lookup (wnet w))).
  { intros x. rewrite L. apply dget_ddel, C. }
  apply (inv_build w w' I).
  - rewrite L, dkeys_ddel. apply remove1_NoDup, C.
  - rewrite G, dkeys_ddel. apply remove1_NoDup, C.
  - intros x i. rewrite DN, G, dget_ddel by apply C. destruct (String.eqb x v); [tauto|apply C].
  - intros j. specialize (S j). cbn. destruct (nth_error (whp w) j), (nth_error h' j); cbn in S |- *; try discriminate; [|reflexivity].
    unfold face in S. unfold ident. congruence.
  - intros x i. rewrite DN. destruct (String.eqb x v); [discriminate|auto].
  - apply NoDup_filter, C.
  - intros a b E. apply ED in E. destruct E as (E & Na & Nb). rewrite L, dkeys_ddel, !remove1_In by apply C.
    destruct (co_ends w C a b E). auto.
  - intros x j n' [D H]. rewrite DN in D. destruct (String.eqb x v) eqn:Xv; [discriminate|]. apply String.eqb_neq in Xv.
    cbn in H. destruct (co_named w C x j D) as (n & Hn & Nn).
    destruct (inv_held_facts w x j n I (conj D Hn)) as (B1 & B2 & B3 & B4 & B5 & B6).
    destruct (is_child_dec w v j) as [Ch|NC].
    + rewrite (PC j n Ch Hn) in H. injection H as <-.
      cbn [nporder nparents ncpd nkind nvalues with_cpd with_parents reset shrunk tshape].
      split; [apply remove1_NoDup, B1|]. split.
      { intros u. rewrite remove1_In, B2, ED by exact B1. tauto. }
      split; [change (NoDup (dkeys (ddel v (nparents n)))); rewrite dkeys_ddel; apply remove1_NoDup, B3|]. split.
      { intros u o. rewrite dget_ddel, DN, ED by exact B3. destruct (String.eqb u v) eqn:E.
        - split; [discriminate|intros [_ ?]; discriminate].
        - apply String.eqb_neq in E. rewrite B4. tauto. }
      split; [|do 2 eexists; split; [reflexivity|apply real_full]].
      change (own_dims (shrunk (size w) v n)) with (own_dims n). cbn [tshape np_zeros np_full tabulate shape]. f_equal. apply map_ext_in. intros u Iu. apply remove1_In in Iu; [|exact B1]. symmetry; apply SZ, Iu.
    + rewrite PN in H by exact NC. assert (n' = n) by congruence. subst n'.
      assert (NE : ~ edge w v x) by (intros E; apply NC; exists x; split; assumption).
      assert (EQ : forall u, edge w' u x <-> edge w u x).
      { intros u. rewrite ED. split; [tauto|]. intros E. split; [exact E|]. split; [intros ->; contradiction|exact Xv]. }
      split; [exact B1|]. split; [intros u; rewrite EQ; apply B2|]. split; [exact B3|]. split.
      { intros u o. rewrite EQ, DN, B4. destruct (String.eqb u v) eqn:E; [|tauto]. apply String.eqb_eq in E. subst u. tauto. }
      split; [|exact B6]. rewrite B5. f_equal. apply map_ext_in. intros u Iu. symmetry; apply SZ. intros ->. apply NE, B2, Iu.
  - intros j n' H. cbn in H. destruct (is_child_dec w v j) as [Ch|NC].
    + destruct Ch as (x & E & D). destruct (string_dec x v) as [->|N].
      * destruct (co_named w C v j D) as (n & Hn & _).
        assert (Ch : is_child w v j) by (exists v; auto).
        rewrite (PC j n Ch Hn) in H. injection H as <-. right. left. unfold shrunk. apply sound_reset. cbn.
        destruct (remove1 v (nporder n)) as [|q l] eqn:R; [right|left; discriminate].
        destruct (inv_held_facts w v j n I (conj D Hn)) as (B1 & B2 & B3 & B4 & _).
        split; [|apply app_nil_r]. destruct (ddel v (nparents n)) as [|[q o] d] eqn:DD; [reflexivity|exfalso].
        assert (X : dget q (ddel v (nparents n)) = Some o) by (rewrite DD; cbn; rewrite eqb_refl_s; reflexivity).
        rewrite dget_ddel in X by exact B3. destruct (String.eqb q v) eqn:Q; [discriminate|]. apply String.eqb_neq in Q.
        apply B4 in X. assert (Y : In q (remove1 v (nporder n))) by (apply remove1_In; [exact B1|split; [apply B2, X|exact Q]]).
        rewrite R in Y. destruct Y.
      * right. right. exists x. split; [rewrite DN, eqb_neq_s by exact N; exact D|exact H].
    + left. rewrite <- PN by exact NC. exact H.
Qed.
