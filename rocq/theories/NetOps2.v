(** Changing a node's values. *)
From Verif Require Import Base BaseFacts NDArray NDArrayFacts Node Network NetSpec NetFacts NetInv NetOps.

Definition new_size (w : world) (v : string) (vs : list string) (u : string) : nat :=
  if String.eqb u v then length vs else size w u.

(** A node whose table is reset for the given sizes. *)
Definition refreshed (sz : string -> nat) (n : node) : node := reset n (own_dims n ++ map sz (nporder n)).

Lemma change_values_run w v i n vs : inv w -> holds w v i n ->
  exists h', change_node_values w v vs = (mkW h' (wnet w), Ok tt) /\
    nth_error h' i = Some (refreshed (new_size w v vs) (with_values n vs)) /\
    (forall j m, j <> i -> is_child w v j -> nth_error (whp w) j = Some m ->
        nth_error h' j = Some (refreshed (new_size w v vs) m)) /\
    (forall j, j <> i -> ~ is_child w v j -> nth_error h' j = nth_error (whp w) j).
Proof.
  intros I H. pose proof (iv_c w I) as C. assert (K := inv_discrete w I v i n H).
  set (n1 := with_values n vs). set (w1 := mkW (list_set i n1 (whp w)) (wnet w)).
  assert (C1 : consistent w1).
  { eapply consistent_struct; [| |exact C]; [reflexivity|]. cbn. eapply set_same_attr; [apply H|reflexivity]. }
  assert (D1 : forall x j m, holds w1 x j m -> nkind m = KDiscrete).
  { intros x j m [D E]. cbn in D, E. rewrite nth_error_list_set in E. destruct (Nat.eq_dec j i) as [->|].
    - rewrite (proj2 H) in E. injection E as <-. exact K.
    - eapply inv_discrete; [exact I|]. split; eassumption. }
  assert (H1 : holds w1 v i n1).
  { split; [apply H|]. cbn. rewrite nth_error_list_set, (proj2 H). destruct (Nat.eq_dec i i); [reflexivity|contradiction]. }
  assert (SZ1 : forall u, size w1 u = new_size w v vs u).
  { intros u. unfold new_size. destruct (String.eqb u v) eqn:E.
    - apply String.eqb_eq in E. subst u. rewrite (size_get w1 v i n1 H1). reflexivity.
    - apply String.eqb_neq in E. unfold size. cbn. destruct (dget u (lookup (wnet w))) as [j|] eqn:D; [|reflexivity].
      rewrite nth_error_list_set. destruct (Nat.eq_dec j i) as [->|]; [|reflexivity].
      exfalso. apply E. eapply (lookup_inj w C); [exact D|apply H]. }
  assert (R1 : forall x j m, holds w1 x j m -> resolved (whp w1) (new_size w v vs) m).
  { intros x j m Hm q Iq. destruct (resolved_node w1 C1 D1 x j m Hm q Iq) as (o & m' & A1 & A2 & A3 & A4).
    exists o, m'. rewrite <- SZ1. auto. }
  set (sz := new_size w v vs).
  assert (SV : set_values (whp w) i vs = (list_set i (refreshed sz n1) (whp w), Ok tt)).
  { unfold set_values. rewrite (proj2 H), K. unfold refresh. rewrite (update_dimensions_ok _ sz).
    - rewrite list_set_twice. reflexivity.
    - cbn. congruence.
    - apply (R1 v i n1 H1). }
  set (w2 := mkW (list_set i (refreshed sz n1) (whp w)) (wnet w)).
  assert (S12 : similar (whp w1) (whp w2)).
  { intros j. cbn. rewrite !nth_error_list_set. destruct (Nat.eq_dec j i); [|reflexivity].
    destruct (nth_error (whp w) j); reflexivity. }
  assert (C2 : consistent w2).
  { eapply consistent_struct; [| |exact C]; [reflexivity|]. cbn. eapply set_same_attr; [apply H|reflexivity]. }
  destruct (children_objects w2 C2 v) as (os & KO & ND & IO & _).
  set (f := fun (w : world) (c : oid) => match nth_error (whp w) c with
            | None => raise AttributeError w
            | Some n => on_heap w (refresh (whp w) c n)
            end).
  assert (G2 : forall x j m, holds w2 x j m -> exists m1, holds w1 x j m1 /\ face m1 = face m /\ struct m1 = struct m).
  { intros x j m [D E]. cbn in D, E. rewrite nth_error_list_set in E. destruct (Nat.eq_dec j i) as [->|N].
    - rewrite (proj2 H) in E. injection E as <-. exists n1. split; [|split; reflexivity]. split; [exact D|apply H1].
    - exists m. split; [|split; reflexivity]. split; [exact D|]. cbn. rewrite nth_error_list_set.
      destruct (Nat.eq_dec j i); [contradiction|exact E]. }
  destruct (each_ok f (fun _ m => refreshed sz m) w2 os) as (h' & E & S & P).
  - exact ND.
  - intros o Io. apply IO in Io. destruct Io as (x & _ & D). destruct (co_named w2 C2 x o D) as (m & Hm & _). congruence.
  - reflexivity.
  - intros w3 o m Io N3 S3 H3 H2. apply IO in Io. destruct Io as (x & Ex & Dx).
    assert (Hm : holds w2 x o m) by (split; assumption).
    destruct (G2 x o m Hm) as (m1 & Hm1 & F1 & T1).
    assert (Km : nkind m = KDiscrete).
    { rewrite <- (D1 x o m1 Hm1). unfold face in F1. congruence. }
    unfold f. rewrite H3. unfold on_heap. rewrite (refresh_ok _ sz _ _ m).
    + reflexivity.
    + exact H3.
    + reflexivity.
    + congruence.
    + eapply resolved_similar; [exact S3|]. eapply resolved_similar; [exact S12|].
      assert (Rm := R1 x o m1 Hm1). unfold struct in T1. injection T1 as _ T2 T3.
      intros q Iq. rewrite <- T2 in Iq. destruct (Rm q Iq) as (o' & m' & A & B). exists o', m'. rewrite <- T3. split; [exact A|exact B].
  - exists h'.
    assert (IOw : forall j, In j os <-> is_child w v j) by exact IO.
    split; [|split; [|split]].
    + unfold change_node_values. rewrite (proj1 H). unfold on_heap. rewrite SV. cbn [fst snd andthen].
      change (with_heap w _) with w2. rewrite (graph_mem w2 C2). unfold dmem. change (lookup (wnet w2)) with (lookup (wnet w)).
      rewrite (proj1 H). cbn [negb]. fold f.
      rewrite (for_keys_each f w2 _ os); [exact E|exact KO| |reflexivity].
      intros w3 o w3' _ N F3. unfold f in F3. destruct (nth_error (whp w3) o); [|discriminate].
      unfold on_heap in F3. injection F3 as <- _. exact N.
    + rewrite P. assert (E2 : nth_error (whp w2) i = Some (refreshed sz n1)).
      { cbn. rewrite nth_error_list_set, (proj2 H). destruct (Nat.eq_dec i i); [reflexivity|contradiction]. }
      rewrite E2. destruct (in_dec Nat.eq_dec i os); reflexivity.
    + intros j m N Ch Hj. rewrite P. cbn [whp w2]. rewrite nth_error_list_set. destruct (Nat.eq_dec j i); [contradiction|].
      destruct (in_dec Nat.eq_dec j os) as [_|X]; [rewrite Hj; reflexivity|]. exfalso; apply X, IOw, Ch.
    + intros j N NC. rewrite P. cbn [whp w2]. rewrite nth_error_list_set. destruct (Nat.eq_dec j i); [contradiction|].
      destruct (in_dec Nat.eq_dec j os) as [X|_]; [|reflexivity]. exfalso; apply NC, IOw, X.
Qed.

Lemma inv_change_values w v vs : inv w -> inv (fst (change_node_values w v vs)).
Proof.
  intros I. pose proof (iv_c w I) as C. destruct (dget v (lookup (wnet w))) as [i|] eqn:D.
  2:{ unfold change_node_values. rewrite D. exact I. }
  destruct (co_named w C v i D) as (n & Hn & Nn). assert (H : holds w v i n) by (split; assumption).
  destruct (change_values_run w v i n vs I H) as (h' & -> & A1 & A2 & A3). cbn [fst].
  set (sz := new_size w v vs) in *.
  set (w' := mkW h' (wnet w)).
  assert (V : forall j m, nth_error (whp w) j = Some m -> exists m', nth_error h' j = Some m' /\
             ident m' = ident m /\ struct m' = struct m /\ nvalues m' = if Nat.eq_dec j i then vs else nvalues m).
  { intros j m Hm. destruct (Nat.eq_dec j i) as [->|N].
    - assert (m = n) by congruence. subst m. eexists. split; [exact A1|]. repeat split.
    - destruct (is_child_dec w v j) as [Ch|NC].
      + eexists. split; [apply (A2 j m N Ch Hm)|]. repeat split.
      + exists m. rewrite A3 by assumption. repeat split. exact Hm. }
  assert (VN : forall j, nth_error (whp w) j = None -> nth_error h' j = None).
  { intros j Hm. assert (j <> i) by congruence. rewrite A3; [exact Hm|assumption|].
    intros (x & _ & Dx). destruct (co_named w C x j Dx) as (m & Hm' & _). congruence. }
  assert (SZ : forall u, size w' u = sz u).
  { intros u. unfold sz, new_size, size. change (wnet w') with (wnet w). change (whp w') with h'. destruct (String.eqb u v) eqn:E.
    - apply String.eqb_eq in E. subst u. rewrite D. rewrite A1. reflexivity.
    - apply String.eqb_neq in E. destruct (dget u (lookup (wnet w))) as [j|] eqn:Du; [|reflexivity].
      destruct (co_named w C u j Du) as (m & Hm & _). destruct (V j m Hm) as (m' & -> & _ & _ & Vm). rewrite Hm, Vm.
      destruct (Nat.eq_dec j i) as [->|]; [|reflexivity]. exfalso. apply E. eapply (lookup_inj w C); eassumption. }
  apply (inv_build w w' I); try apply C.
  - intros j. change (whp w') with h'. destruct (nth_error (whp w) j) as [m|] eqn:Hm.
    + destruct (V j m Hm) as (m' & -> & E & _). cbn. congruence.
    + rewrite VN by exact Hm. reflexivity.
  - intros ? ? X; exact X.
  - intros x j m' [Dx Hm']. cbn in Dx, Hm'. destruct (co_named w C x j Dx) as (m & Hm & _).
    destruct (V j m Hm) as (m'' & X & _ & E & _). rewrite X in Hm'. injection Hm' as ->.
    destruct (inv_held_facts w x j m I (conj Dx Hm)) as (B1 & B2 & B3 & B4 & B5 & B6).
    unfold struct in E. injection E as _ E2 E3. rewrite (map_ext _ _ SZ), E2, E3.
    split; [exact B1|]. split; [exact B2|]. split; [exact B3|]. split; [exact B4|].
    destruct (Nat.eq_dec j i) as [->|N].
    + assert (m = n) by congruence. subst m. rewrite A1 in X. injection X as <-. split; [reflexivity|].
      do 2 eexists; split; [reflexivity|apply real_full].
    + destruct (is_child_dec w v j) as [Ch|NC].
      * rewrite (A2 j m N Ch Hm) in X. injection X as <-. split; [reflexivity|].
        do 2 eexists; split; [reflexivity|apply real_full].
      * rewrite A3 in X by assumption. assert (m' = m) by congruence. subst m'. split; [|exact B6].
        rewrite B5. f_equal. apply map_ext_in. intros u Iu. unfold sz, new_size.
        rewrite eqb_neq_s; [reflexivity|]. intros ->. apply NC. exists x. split; [apply B2, Iu|exact Dx].
  - intros j m' Hm'. cbn in Hm'. destruct (Nat.eq_dec j i) as [->|N].
    + right. right. exists v. split; [exact D|exact Hm'].
    + destruct (is_child_dec w v j) as [Ch|NC].
      * right. right. destruct Ch as (x & _ & Dx). exists x. split; [exact Dx|exact Hm'].
      * left. rewrite <- A3 by assumption. exact Hm'.
Qed.
