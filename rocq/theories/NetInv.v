(** The network invariant and the calls with a local effect. *)
From Verif Require Import Base BaseFacts NDArray NDArrayFacts Node Network NetSpec NetFacts.

Definition sound (n : node) : Prop :=
  (exists int a, ncpd n = TArr int a /\ real_array a) /\
  (nporder n = [] -> nparents n = [] /\ tshape (ncpd n) = own_dims n).

Record inv (w : world) : Prop := {
  iv_c : consistent w;
  iv_f : fitting w;
  iv_s : forall i n, nth_error (whp w) i = Some n -> nkind n = KDiscrete -> sound n
}.

Lemma inv_discrete w : inv w -> forall v i n, holds w v i n -> nkind n = KDiscrete.
Proof. intros I v i n H. apply (iv_f w I v i n H). Qed.

Lemma inv_resolved w v i n : inv w -> holds w v i n -> resolved (whp w) (size w) n.
Proof. intros I H. exact (resolved_node w (iv_c w I) (inv_discrete w I) v i n H). Qed.

Lemma own_dims_discrete n : nkind n = KDiscrete -> own_dims n = if nvalues n then [] else [length (nvalues n)].
Proof. intros K. unfold own_dims. rewrite K. destruct (nvalues n); reflexivity. Qed.

Lemma right_shape_own w n : nkind n = KDiscrete -> right_shape w n = own_dims n ++ map (size w) (nporder n).
Proof. intros K. unfold right_shape. rewrite own_dims_discrete by assumption. reflexivity. Qed.

Lemma real_full sh q : real_array (np_full sh q).
Proof. unfold real_array, np_full, tabulate. cbn. rewrite map_length. apply length_indices. Qed.

Lemma sound_reset n d : nporder n <> [] \/ (nparents n = [] /\ d = own_dims n) -> sound (reset n d).
Proof.
  intros H. split.
  - exists false, (np_zeros d). split; [reflexivity|apply real_full].
  - cbn. intros E. destruct H as [H|[A B]]; [contradiction|]. split; assumption.
Qed.

(** A node of a consistent network without parents has an empty parents dict. *)
Lemma no_parents w v i n : consistent w -> holds w v i n -> nporder n = [] -> nparents n = [].
Proof.
  intros C H E. destruct (nparents n) as [|[u o] d] eqn:P; [reflexivity|exfalso].
  assert (D : dget u (nparents n) = Some o) by (rewrite P; cbn; rewrite eqb_refl_s; reflexivity).
  apply (co_pdict w C v i n u o H) in D. destruct D as [D _].
  apply (co_parents w C v i n u H) in D. rewrite E in D. destruct D.
Qed.

(** If all network nodes are fitting and free nodes are sound, all are sound. *)
Lemma sound_of w : consistent w -> fitting w ->
  (forall v i n, holds w v i n -> exists int a, ncpd n = TArr int a /\ real_array a) ->
  forall v i n, holds w v i n -> sound n.
Proof.
  intros C F A v i n H. split; [eapply A, H|]. intros E. split; [eapply no_parents; eauto|].
  destruct (F v i n H) as [K S]. rewrite S, right_shape_own, E by assumption. apply app_nil_r.
Qed.

Lemma free_or_held w i : consistent w -> (exists v n, holds w v i n) \/ forall v, dget v (lookup (wnet w)) <> Some i.
Proof.
  intros C. destruct (nth_error (whp w) i) as [n|] eqn:E.
  - destruct (dget (nname n) (lookup (wnet w))) as [j|] eqn:D.
    + destruct (Nat.eq_dec j i) as [->|N].
      * left. exists (nname n), n. split; assumption.
      * right. intros v L. destruct (co_named w C v i L) as (m & M & MN). assert (m = n) by congruence. subst m.
        congruence.
    + right. intros v L. destruct (co_named w C v i L) as (m & M & MN). assert (m = n) by congruence. subst m. congruence.
  - right. intros v L. destruct (co_named w C v i L) as (m & M & _). congruence.
Qed.

(** Changes of tables only. *)
Definition struct (n : node) := (nname n, nporder n, nparents n).

Lemma consistent_struct w w' : wnet w' = wnet w ->
  (forall j, option_map struct (nth_error (whp w) j) = option_map struct (nth_error (whp w') j)) ->
  consistent w -> consistent w'.
Proof.
  intros N S C.
  assert (B : forall v i n', holds w' v i n' -> exists n, holds w v i n /\ struct n' = struct n).
  { intros v i n' [D H]. rewrite N in D. specialize (S i). rewrite H in S.
    destruct (nth_error (whp w) i) as [n|] eqn:E; cbn in S; [|discriminate]. exists n. split; [split; assumption|congruence]. }
  constructor; rewrite ?N; try apply C.
  - intros v i D. destruct (co_named w C v i D) as (n & H & E). specialize (S i). rewrite H in S. cbn in S.
    destruct (nth_error (whp w') i) as [n'|]; cbn in S; [|discriminate]. exists n'. split; [reflexivity|].
    unfold struct in S. congruence.
  - unfold edge. rewrite N. apply C.
  - intros v i n' H. destruct (B v i n' H) as (n & Hn & E). injection E as _ E _. rewrite E. eapply C, Hn.
  - intros v i n' u H. destruct (B v i n' H) as (n & Hn & E). injection E as _ E _. rewrite E.
    unfold edge. rewrite N. eapply C, Hn.
  - intros v i n' H. destruct (B v i n' H) as (n & Hn & E). injection E as _ _ E. rewrite E. eapply C, Hn.
  - intros v i n' u o H. destruct (B v i n' H) as (n & Hn & E). injection E as _ _ E. rewrite E.
    unfold edge. rewrite N. eapply C, Hn.
Qed.

Lemma size_similar w w' : lookup (wnet w') = lookup (wnet w) -> similar (whp w) (whp w') ->
  forall u, size w' u = size w u.
Proof.
  intros N S u. unfold size. rewrite N. destruct (dget u _) as [i|]; [|reflexivity].
  specialize (S i). destruct (nth_error (whp w) i), (nth_error (whp w') i); cbn in S; try discriminate; [|reflexivity].
  unfold face in S. congruence.
Qed.

(** Storing a table of the right shape in one node. *)
Lemma inv_table w i n t b : inv w -> nth_error (whp w) i = Some n -> nkind n = KDiscrete ->
  tshape t = tshape (ncpd n) -> (exists int a, t = TArr int a /\ real_array a) ->
  inv (with_heap w (list_set i (with_cpd n t b) (whp w))).
Proof.
  intros I H K T R.
  assert (S : similar (whp w) (list_set i (with_cpd n t b) (whp w))) by (eapply similar_set; eauto).
  constructor.
  - eapply consistent_struct; [| |apply (iv_c w I)]; [reflexivity|]. cbn. intros j. rewrite nth_error_list_set.
    destruct (Nat.eq_dec j i) as [->|]; [|reflexivity]. rewrite H. reflexivity.
  - intros v j m [D M]. cbn in D, M. rewrite nth_error_list_set in M.
    assert (RS : forall x, right_shape (with_heap w (list_set i (with_cpd n t b) (whp w))) x = right_shape w x).
    { intros x. unfold right_shape. f_equal. apply map_ext. intros u. apply size_similar; [reflexivity|exact S]. }
    rewrite RS. destruct (Nat.eq_dec j i) as [->|].
    + rewrite H in M. injection M as <-. cbn. rewrite T. apply (iv_f w I v i n). split; assumption.
    + apply (iv_f w I v j m). split; assumption.
  - cbn. intros j m M Km. rewrite nth_error_list_set in M. destruct (Nat.eq_dec j i) as [->|]; [|apply (iv_s w I j m M Km)].
    rewrite H in M. injection M as <-. destruct (iv_s w I i n H K) as [_ S2]. split; [exact R|].
    cbn. intros E. rewrite T. apply S2, E.
Qed.

Lemma assign_shape a s q a' : assign a s q = Ok a' -> shape a' = shape a /\ real_array a'.
Proof.
  unfold assign. destruct (sel_ok _ _); [|discriminate]. intros E. injection E as <-. split; [reflexivity|].
  unfold real_array, tabulate. cbn. rewrite map_length. apply length_indices.
Qed.

Lemma inv_set_cpd w i int a : inv w -> real_array a -> inv (fst (exec w (SetCpd i int a))).
Proof.
  intros I R. cbn. unfold on_node. destruct (nth_error (whp w) i) as [n|] eqn:H; [|exact I].
  unfold set_cpd, store_table. destruct (nkind n) eqn:K; try exact I.
  destruct (list_eq_dec _ _ _) as [E|]; [|exact I]. cbn. apply inv_table; try assumption; [cbn; congruence|eauto].
Qed.

Lemma inv_set_prob w i x p pv : inv w -> inv (fst (exec w (SetProb i x p pv))).
Proof.
  intros I. cbn. unfold on_node. destruct (nth_error (whp w) i) as [n|] eqn:H; [|exact I].
  unfold set_probability. destruct (nkind n) eqn:K; try exact I.
  destruct (own_index n x) as [k|]; cbn [rbind]; [|exact I].
  destruct (mapM _ _) as [s|]; cbn [rbind]; [|exact I].
  unfold put. destruct (ncpd n) as [q|int a] eqn:T; [exact I|].
  destruct (assign a _ _) as [a'|] eqn:A; cbn [rbind]; [|exact I]. cbn.
  apply assign_shape in A. destruct A as [A1 A2]. apply inv_table; try assumption; [|eauto].
  rewrite T. exact A1.
Qed.

Lemma inv_new w k name values : inv w -> inv (fst (exec w (NewNode k name values))).
Proof.
  intros I. cbn.
  assert (B : forall v i n, holds (with_heap w (whp w ++ [new_node k name values])) v i n -> holds w v i n).
  { intros v i n [D H]. cbn in D, H. split; [exact D|]. destruct (co_named w (iv_c w I) v i D) as (m & M & _).
    rewrite nth_error_app1 in H by (apply nth_error_Some; congruence). exact H. }
  assert (SZ : forall u, size (with_heap w (whp w ++ [new_node k name values])) u = size w u).
  { intros u. unfold size. cbn. destruct (dget u (lookup (wnet w))) as [i|] eqn:D; [|reflexivity].
    destruct (co_named w (iv_c w I) u i D) as (m & M & _).
    rewrite nth_error_app1 by (apply nth_error_Some; congruence). reflexivity. }
  pose proof (iv_c w I) as C. constructor.
  - constructor; cbn; try apply C.
    + intros v i D. destruct (co_named w C v i D) as (m & M & E). exists m. split; [|exact E].
      rewrite nth_error_app1 by (apply nth_error_Some; congruence). exact M.
    + intros v i n H. apply B in H. eapply C, H.
    + intros v i n u H. apply B in H. apply (co_parents w C v i n u H).
    + intros v i n H. apply B in H. eapply C, H.
    + intros v i n u o H. apply B in H. apply (co_pdict w C v i n u o H).
  - intros v i n H. apply B in H. destruct (iv_f w I v i n H) as [K S]. split; [exact K|]. rewrite S.
    unfold right_shape. f_equal. apply map_ext. intros; symmetry; apply SZ.
  - intros i n H K. cbn in H. destruct (Nat.lt_ge_cases i (length (whp w))) as [L|L].
    + rewrite nth_error_app1 in H by exact L. apply (iv_s w I i n H K).
    + rewrite nth_error_app2 in H by exact L. destruct (i - length (whp w)) as [|[|]]; cbn in H; try discriminate.
      injection H as <-. destruct k; try discriminate. cbn. split.
      * exists false, (np_zeros (match values with [] => [] | _ :: _ => [length values] end)). split; [reflexivity|apply real_full].
      * intros _. split; [reflexivity|]. cbn. destruct values; reflexivity.
Qed.

Lemma inv_add_node w i : inv w -> within w (AddNode i) -> inv (fst (exec w (AddNode i))).
Proof.
  intros I A. cbn in A. cbn [exec]. unfold add_node. destruct (nth_error (whp w) i) as [n|] eqn:H; [|exact I].
  destruct (A n eq_refl) as [K P]. destruct (dmem (nname n) (lookup (wnet w))) eqn:M; [exact I|].
  apply dmem_nIn in M. pose proof (iv_c w I) as C.
  assert (MG : dmem (nname n) (ggraph (wnet w)) = false).
  { rewrite (graph_mem w C). apply dmem_nIn, M. }
  cbn [fst ret]. unfold graph_add_node. cbn. rewrite MG.
  destruct (iv_s w I i n H K) as [TA TE]. destruct (TE P) as [PD TS].
  set (w' := with_net w _).
  assert (L : lookup (wnet w') = dset (nname n) i (lookup (wnet w))) by reflexivity.
  assert (B : forall v j m, holds w' v j m -> (v = nname n /\ j = i /\ m = n) \/ (v <> nname n /\ holds w v j m)).
  { intros v j m [D E]. rewrite L, dget_dset in D. cbn in E. destruct (String.eqb v (nname n)) eqn:EV.
    - apply String.eqb_eq in EV. left. injection D as <-. split; [exact EV|split; [reflexivity|congruence]].
    - apply String.eqb_neq in EV. right. split; [exact EV|split; assumption]. }
  assert (DL : forall u, In u (dkeys (lookup (wnet w))) -> dget u (lookup (wnet w')) = dget u (lookup (wnet w))).
  { intros u Iu. rewrite L. apply dget_dset_neq. intros ->; contradiction. }
  assert (NE : forall u, ~ edge w u (nname n)).
  { intros u E. apply M. apply (co_ends w C _ _ E). }
  assert (Cw : consistent w').
  { constructor.
    - rewrite L. apply dset_NoDup, C.
    - cbn. apply dset_NoDup, C.
    - intros v j. rewrite L. cbn. rewrite !dget_dset. destruct (String.eqb v (nname n)); [tauto|apply C].
    - intros v j D. rewrite L, dget_dset in D. cbn. destruct (String.eqb v (nname n)) eqn:EV.
      + apply String.eqb_eq in EV. injection D as <-. exists n; auto.
      + apply (co_named w C v j D).
    - apply C.
    - intros u v E. rewrite L, !In_dkeys_dset. destruct (co_ends w C u v E). auto.
    - intros v j m Hm. apply B in Hm. destruct Hm as [(-> & -> & ->)|[_ Hm]]; [rewrite P; constructor|eapply C, Hm].
    - intros v j m u Hm. apply B in Hm. destruct Hm as [(-> & -> & ->)|[_ Hm]].
      + rewrite P. split; [intros []|]. intros E. exact (NE u E).
      + apply (co_parents w C v j m u Hm).
    - intros v j m Hm. apply B in Hm. destruct Hm as [(-> & -> & ->)|[_ Hm]]; [rewrite PD; constructor|eapply C, Hm].
    - intros v j m u o Hm. apply B in Hm. destruct Hm as [(-> & -> & ->)|[_ Hm]].
      + rewrite PD. cbn [dget]. split; [discriminate|]. intros [E _]. destruct (NE u E).
      + rewrite (co_pdict w C v j m u o Hm). change (edge w' u v) with (edge w u v).
        split; intros [E D]; (split; [exact E|]); pose proof (proj1 (co_ends w C _ _ E)) as Iu; rewrite DL in *; assumption. }
  constructor.
  - exact Cw.
  - intros v j m Hm. apply B in Hm. destruct Hm as [(-> & -> & ->)|[_ Hm]].
    + split; [exact K|]. rewrite TS, right_shape_own, P by exact K. symmetry; apply app_nil_r.
    + destruct (iv_f w I v j m Hm) as [Km S]. split; [exact Km|]. rewrite S. unfold right_shape. f_equal.
      apply map_ext_in. intros u Iu. apply (co_parents w C v j m u Hm) in Iu.
      unfold size. rewrite DL by apply (co_ends w C _ _ Iu). reflexivity.
  - exact (iv_s w I).
Qed.

Lemma inv_empty h nm mt : (forall i n, nth_error h i = Some n -> nkind n = KDiscrete -> sound n) ->
  inv (mkW h (mkNet [] [] [] nm mt)).
Proof.
  intros S. assert (H : forall v i n, ~ holds (mkW h (mkNet [] [] [] nm mt)) v i n) by (intros v i n [D _]; discriminate).
  constructor.
  - constructor; try (intros; exfalso; eapply H; eassumption).
    + constructor.
    + constructor.
    + cbn. tauto.
    + discriminate.
    + constructor.
    + intros u v [].
  - intros v i n D. destruct (H _ _ _ D).
  - exact S.
Qed.

Lemma inv_clear w : inv w -> inv (fst (exec w Clear)).
Proof. intros I. apply inv_empty, I. Qed.

Lemma inv_start : inv start.
Proof. apply inv_empty. intros [|i] n; discriminate. Qed.

(** Assigning names and properties. *)
Lemma inv_label w nm mt : inv w -> inv (fst (exec w (Label nm mt))).
Proof.
  intros [[] F S]. constructor; [|exact F|exact S]. constructor; assumption.
Qed.

Lemma inv_label_node w i mt : inv w -> inv (fst (exec w (LabelNode i mt))).
Proof.
  intros I. cbn [exec]. unfold on_node. destruct (nth_error (whp w) i) as [n|] eqn:H; [|exact I]. cbn.
  set (w' := with_heap w (list_set i (with_meta n mt) (whp w))).
  assert (B : forall j m', nth_error (whp w') j = Some m' -> exists m, nth_error (whp w) j = Some m /\
     nkind m' = nkind m /\ nvalues m' = nvalues m /\ ncpd m' = ncpd m /\ struct m' = struct m).
  { intros j m' M. cbn in M. rewrite nth_error_list_set in M. destruct (Nat.eq_dec j i) as [->|].
    - rewrite H in M. injection M as <-. exists n. auto.
    - exists m'. auto. }
  assert (SM : similar (whp w) (whp w')) by (apply (similar_set _ _ n); [exact H|reflexivity]).
  assert (SZ : forall u, size w' u = size w u) by (apply size_similar; [reflexivity|exact SM]).
  constructor.
  - apply (consistent_struct w); [reflexivity| |apply I]. intros j. cbn. rewrite nth_error_list_set.
    destruct (Nat.eq_dec j i) as [->|]; [|reflexivity]. rewrite H. reflexivity.
  - intros v j m' [D M]. destruct (B j m' M) as (m & Hm & K & V & T & P). injection P as _ P _.
    destruct (iv_f w I v j m (conj D Hm)) as [K' S]. rewrite K, T. split; [exact K'|]. rewrite S. unfold right_shape. rewrite V, P.
    f_equal. apply map_ext. intros u. symmetry. apply SZ.
  - intros j m' M Km. destruct (B j m' M) as (m & Hm & K & V & T & P). injection P as _ P1 P2.
    rewrite K in Km. destruct (iv_s w I j m Hm Km) as [S1 S2]. split; [rewrite T; exact S1|].
    rewrite P1, P2, T. intros E. destruct (S2 E) as [A1 A2]. split; [exact A1|]. rewrite A2. unfold own_dims. rewrite K, V. reflexivity.
Qed.
