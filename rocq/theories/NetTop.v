(** Properties of all reachable networks. *)
From Verif Require Import Base BaseFacts NDArray NDArrayFacts Node Network NetSpec NetFacts NetInv NetOps NetOps2 NetRename.

Lemma inv_exec w o : inv w -> within w o -> inv (fst (exec w o)).
Proof.
  intros I A. destruct o as [k nm vs|i|u v|u v|r|r vs|r new| |i int a|i x p pv|nm mt|i mt].
  - apply inv_new, I.
  - apply inv_add_node; assumption.
  - apply inv_add_edge; assumption.
  - apply inv_remove_edge, I.
  - apply inv_remove_node, I.
  - apply inv_change_values, I.
  - cbn in A. destruct A as [(s & ->) FR]. apply inv_rename; [exact I|exact FR].
  - apply inv_clear, I.
  - apply inv_set_cpd; [exact I|exact A].
  - apply inv_set_prob, I.
  - apply inv_label, I.
  - apply inv_label_node, I.
Qed.

Lemma reached_inv w : reached w -> inv w.
Proof. induction 1 as [|w o R IH A]; [apply inv_start|apply inv_exec; assumption]. Qed.

Lemma reached_run os : forall w, reached w -> all_within w os -> reached (run w os).
Proof.
  induction os as [|o os IH]; intros w R A; [exact R|]. cbn in *. destruct A as [A B].
  apply IH; [apply reached_call; assumption|exact B].
Qed.

Theorem structure_ok w : reached w -> consistent w.
Proof. intros R. apply reached_inv, R. Qed.

Theorem shapes_ok w : reached w -> fitting w.
Proof. intros R. apply reached_inv, R. Qed.

(** set_cpd accepts exactly the tables of the right shape. *)
Theorem set_cpd_accepts w v i n int a : reached w -> holds w v i n ->
  (shape a = right_shape w n ->
     snd (exec w (SetCpd i int a)) = Ok tt /\
     nth_error (whp (fst (exec w (SetCpd i int a)))) i = Some (with_cpd n (TArr int a) true)) /\
  (shape a <> right_shape w n -> exec w (SetCpd i int a) = (w, Err ValueError)).
Proof.
  intros R H. pose proof (reached_inv w R) as I. destruct (iv_f w I v i n H) as [K S].
  cbn [exec]. unfold on_node. rewrite (proj2 H). unfold set_cpd, store_table. rewrite K, S.
  split; intros E; destruct (list_eq_dec Nat.eq_dec (right_shape w n) (shape a)) as [X|X]; try congruence.
  - cbn. rewrite nth_error_list_set, (proj2 H). destruct (Nat.eq_dec i i); [auto|contradiction].
  - reflexivity.
Qed.

Lemma remove1_filter u l : NoDup l -> remove1 u l = filter (other_than u) l.
Proof.
  induction l as [|q l IH]; intros ND; [reflexivity|]. apply NoDup_cons_iff in ND. destruct ND as [NI ND].
  cbn. unfold other_than at 1. destruct (String.eqb u q) eqn:E; cbn.
  - apply String.eqb_eq in E. subst q. rewrite <- IH by exact ND. symmetry. apply remove1_notin, NI.
  - f_equal. apply IH, ND.
Qed.

Lemma full_all sh q : Forall (fun x => x = q) (data (np_full sh q)).
Proof. unfold np_full, tabulate. cbn. apply Forall_forall. intros x H. apply in_map_iff in H. destruct H as (? & <- & _). reflexivity. Qed.

Lemma blank_reset w n dims : dims = right_shape w n -> blank w (reset n dims).
Proof.
  intros ->. split; [reflexivity|]. exists (np_zeros (right_shape w n)). split; [reflexivity|]. split; [reflexivity|].
  split; [apply real_full|apply full_all].
Qed.

Lemma blank_resetd w n dims : nkind n = KDiscrete -> dims = own_dims n ++ map (size w) (nporder n) -> blank w (reset n dims).
Proof. intros K ->. apply blank_reset. symmetry. apply right_shape_own, K. Qed.

Definition outcome (w : world) (o : op) (w' : world) (j : oid) (n n' : node) : Prop :=
  (restructures w o j /\ blank w' n' /\ nporder n' = order_after w o n /\ nvalues n' = values_after w o j n /\
     nname n' = nname n /\ nmeta n' = nmeta n) \/
  (~ restructures w o j /\ n' = n).

Lemma edits_effect w o : inv w -> within w o -> edit o ->
  (snd (exec w o) <> Ok tt -> fst (exec w o) = w) /\
  forall j n, nth_error (whp w) j = Some n ->
    exists n', nth_error (whp (fst (exec w o))) j = Some n' /\ outcome w o (fst (exec w o)) j n n'.
Proof.
  intros I A ED. pose proof (iv_c w I) as C.
  assert (NOOP : forall oo, exec w oo = (w, snd (exec w oo)) -> (forall j, ~ restructures w oo j) ->
    (snd (exec w oo) <> Ok tt -> fst (exec w oo) = w) /\
    forall j n, nth_error (whp w) j = Some n ->
      exists n', nth_error (whp (fst (exec w oo))) j = Some n' /\ outcome w oo (fst (exec w oo)) j n n').
  { intros oo E NR. rewrite E. cbn [fst snd]. split; [reflexivity|]. intros j n Hn. exists n. split; [exact Hn|].
    right. split; [apply NR|reflexivity]. }
  destruct o as [k nm vs|i|u v|u v|r|r vs|r new| |i int a|i x p pv|nm mt|i mt]; try contradiction.
  - (* add_edge *)
    cbn in A. destruct (In_dec_s u (dkeys (lookup (wnet w)))) as [Iu|Nu].
    + destruct (In_dec_s v (dkeys (lookup (wnet w)))) as [Iv|Nv].
      * destruct (in_lookup w C u Iu) as (p & m & Hu). destruct (in_lookup w C v Iv) as (c & nc & Hv).
        assert (R := add_edge_run w u v p m c nc I Hu Hv A).
        assert (OK : snd (exec w (AddEdge u v)) = Ok tt) by (cbn [exec]; rewrite R; reflexivity).
        cbn [exec]. rewrite R. cbn [fst snd]. split; [congruence|].
        intros j n Hn. cbn [whp]. rewrite nth_error_list_set, Hn. destruct (Nat.eq_dec j c) as [->|N].
        -- assert (n = nc) by (destruct Hv; congruence). subst n. eexists. split; [reflexivity|]. left.
           split; [split; [exact OK|apply Hv]|]. split; [|repeat split].
           apply blank_resetd; [exact (inv_discrete w I v c nc Hv)|]. cbn [nporder with_parents]. f_equal.
           apply map_ext. intros q. symmetry. apply size_same; [reflexivity|]. cbn [whp].
           eapply set_same_attr; [apply Hv|reflexivity].
        -- exists n. split; [reflexivity|]. right. split; [|reflexivity]. intros [_ X]. destruct Hv. congruence.
      * assert (E : exec w (AddEdge u v) = (w, Err PlainException)).
        { cbn [exec]. unfold add_edge. rewrite !(graph_mem w C), (proj2 (dmem_nIn v _) Nv), andb_false_r. reflexivity. }
        apply (NOOP (AddEdge u v)); [rewrite E; reflexivity|]. intros j [X _]. rewrite E in X. discriminate.
    + assert (E : exec w (AddEdge u v) = (w, Err PlainException)).
      { cbn [exec]. unfold add_edge. rewrite !(graph_mem w C), (proj2 (dmem_nIn u _) Nu). reflexivity. }
      apply (NOOP (AddEdge u v)); [rewrite E; reflexivity|]. intros j [X _]. rewrite E in X. discriminate.
  - (* remove_edge *)
    destruct (existsb (edge_eqb (u, v)) (gedges (wnet w))) eqn:X.
    + apply edges_bool in X. destruct (co_ends w C u v X) as [Iu Iv].
      destruct (in_lookup w C u Iu) as (p & m & Hu). destruct (in_lookup w C v Iv) as (c & nc & Hv).
      assert (R := remove_edge_run w u v p m c nc I Hu Hv X).
      assert (OK : snd (exec w (RemoveEdge u v)) = Ok tt) by (cbn [exec]; rewrite R; reflexivity).
      cbn [exec]. rewrite R. cbn [fst snd]. split; [congruence|].
      intros j n Hn. cbn [whp]. rewrite nth_error_list_set, Hn. destruct (Nat.eq_dec j c) as [->|N].
      * assert (n = nc) by (destruct Hv; congruence). subst n. eexists. split; [reflexivity|]. left.
        split; [split; [exact OK|split; [exact X|apply Hv]]|]. split; [|split; [|repeat split]].
        -- apply blank_resetd; [exact (inv_discrete w I v c nc Hv)|]. cbn [nporder with_parents]. f_equal.
           apply map_ext. intros q. symmetry. apply size_same; [reflexivity|]. cbn [whp].
           eapply set_same_attr; [apply Hv|reflexivity].
        -- cbn. apply remove1_filter. eapply C, Hv.
      * exists n. split; [reflexivity|]. right. split; [|reflexivity]. intros [_ [_ Y]]. destruct Hv. congruence.
    + apply edges_boolF in X. destruct (remove_edge_absent w u v I X) as [E _].
      apply NOOP.
      * cbn [exec]. destruct (remove_edge w u v) as [w1 r]. cbn in E |- *. congruence.
      * intros j [_ [Y _]]. contradiction.
  - (* remove_node *)
    set (v := ref_name (whp w) r) in *. destruct (dmem v (lookup (wnet w))) eqn:M.
    + apply dmem_In in M. destruct (in_lookup w C v M) as (p & m & Hv).
      destruct (remove_node_run w v p m I Hv) as (h' & R & S & PC & PN).
      assert (OK : snd (exec w (RemoveNode r)) = Ok tt) by (cbn [exec]; fold v; rewrite R; reflexivity).
      cbn [exec]. fold v. rewrite R. cbn [fst snd].
      split; [congruence|]. intros j n Hn. cbn [whp]. destruct (is_child_dec w v j) as [Ch|NC].
      * rewrite (PC j n Ch Hn). eexists. split; [reflexivity|]. left. split; [split; [exact OK|exact Ch]|].
        destruct Ch as (x & Ex & Dx). assert (Hx : holds w x j n) by (split; assumption).
        split; [|split; [|repeat split]].
        -- apply blank_resetd; [exact (inv_discrete w I x j n Hx)|]. cbn [nporder with_parents]. f_equal.
           apply map_ext_in. intros q Iq. apply remove1_In in Iq; [|eapply C, Hx]. destruct Iq as [_ Nq].
           unfold size. cbn [wnet whp lookup set_lookup]. rewrite dget_ddel_neq by exact Nq.
           destruct (dget q (lookup (wnet w))) as [k|]; [|reflexivity]. specialize (S k).
           destruct (nth_error (whp w) k), (nth_error h' k); cbn in S; try discriminate; [|reflexivity].
           unfold face in S. congruence.
        -- cbn. fold v. apply remove1_filter. eapply C, Hx.
      * rewrite PN by exact NC. exists n. split; [exact Hn|]. right. split; [|reflexivity]. intros [_ X]. exact (NC X).
    + apply NOOP.
      * cbn [exec]. fold v. unfold remove_node. rewrite (graph_mem w C), M. reflexivity.
      * intros j [_ (x & Ex & _)]. fold v in Ex. apply dmem_nIn in M. apply M. apply (co_ends w C _ _ Ex).
  - (* change_node_values *)
    set (v := ref_name (whp w) r) in *. destruct (dget v (lookup (wnet w))) as [i|] eqn:D.
    + destruct (co_named w C v i D) as (nv & Hnv & _). assert (Hv : holds w v i nv) by (split; assumption).
      pose proof (inv_change_values w v vs I) as I'.
      destruct (change_values_run w v i nv vs I Hv) as (h' & R & A1 & A2 & A3).
      assert (OK : snd (exec w (ChangeValues r vs)) = Ok tt) by (cbn [exec]; fold v; rewrite R; reflexivity).
      cbn [exec]. fold v. rewrite R in *. cbn [fst snd] in *.
      split; [congruence|]. intros j n Hn. cbn [whp].
      assert (RS : forall x k m', nth_error h' k = Some m' -> dget x (lookup (wnet w)) = Some k ->
                   tshape (ncpd m') = right_shape (mkW h' (wnet w)) m').
      { intros x k m' Hm D'. apply (iv_f _ I' x k m'). split; assumption. }
      destruct (Nat.eq_dec j i) as [->|N].
      * assert (n = nv) by congruence. subst n. eexists. split; [exact A1|]. left.
        split; [split; [exact OK|left; exact D]|]. specialize (RS v i _ A1 D). cbn in RS.
        split; [unfold refreshed; apply blank_reset; exact RS|]. split; [reflexivity|]. split; [|repeat split].
        cbn. fold v. rewrite D, Nat.eqb_refl. reflexivity.
      * destruct (is_child_dec w v j) as [Ch|NC].
        -- rewrite (A2 j n N Ch Hn). eexists. split; [reflexivity|]. left. split; [split; [exact OK|right; exact Ch]|].
           assert (RS' := A2 j n N Ch Hn). destruct Ch as (x & Ex & Dx). specialize (RS x j _ RS' Dx). cbn in RS.
           split; [unfold refreshed; apply blank_reset; exact RS|]. split; [reflexivity|]. split; [|repeat split].
           cbn. fold v. rewrite D. destruct (Nat.eqb_spec i j); [congruence|reflexivity].
        -- rewrite A3 by assumption. exists n. split; [exact Hn|]. right. split; [|reflexivity].
           intros [_ [X|X]]; [change (dget v (lookup (wnet w)) = Some j) in X; congruence|exact (NC X)].
    + apply NOOP.
      * cbn [exec]. fold v. unfold change_node_values. rewrite D. reflexivity.
      * intros j [X _]. cbn [exec] in X. fold v in X. unfold change_node_values in X. rewrite D in X. discriminate.
Qed.

Theorem edits_local w o : reached w -> within w o -> edit o ->
  (snd (exec w o) <> Ok tt -> fst (exec w o) = w) /\
  forall j n, nth_error (whp w) j = Some n ->
    exists n', nth_error (whp (fst (exec w o))) j = Some n' /\
      (~ restructures w o j -> n' = n) /\
      (restructures w o j -> blank (fst (exec w o)) n' /\ nporder n' = order_after w o n /\
         nvalues n' = values_after w o j n /\ nname n' = nname n /\ nmeta n' = nmeta n).
Proof.
  intros R A E. destruct (edits_effect w o (reached_inv w R) A E) as [X Y]. split; [exact X|].
  intros j n Hn. destruct (Y j n Hn) as (n' & Hn' & O). exists n'. split; [exact Hn'|]. unfold outcome in O. tauto.
Qed.

(** The valid flag. *)
Lemma valid_step w o j n : inv w -> within w o -> nth_error (whp w) j = Some n ->
  exists n', nth_error (whp (fst (exec w o))) j = Some n' /\
    ((restructures w o j /\ ~ sets_table w o j /\ nvalid n' = false) \/
     (~ restructures w o j /\ sets_table w o j /\ nvalid n' = true) \/
     (~ restructures w o j /\ ~ sets_table w o j /\ nvalid n' = nvalid n)).
Proof.
  intros I A Hn. pose proof (iv_c w I) as C.
  assert (NS : match o with SetCpd _ _ _ => False | _ => True end -> ~ sets_table w o j).
  { intros X [_ Y]. destruct o; contradiction. }
  assert (NR : ~ edit o -> ~ restructures w o j).
  { intros X [_ Y]. destruct o; try contradiction; apply X; exact Logic.I. }
  assert (EDIT : edit o -> match o with SetCpd _ _ _ => False | _ => True end -> exists n', nth_error (whp (fst (exec w o))) j = Some n' /\
    ((restructures w o j /\ ~ sets_table w o j /\ nvalid n' = false) \/
     (~ restructures w o j /\ sets_table w o j /\ nvalid n' = true) \/
     (~ restructures w o j /\ ~ sets_table w o j /\ nvalid n' = nvalid n))).
  { intros E X. destruct (edits_effect w o I A E) as [_ Y]. destruct (Y j n Hn) as (n' & Hn' & [O|O]); exists n'; (split; [exact Hn'|]).
    - left. split; [apply O|]. split; [apply NS, X|]. apply O.
    - right. right. split; [apply O|]. split; [apply NS, X|]. destruct O as [_ ->]. reflexivity. }
  assert (KEEP : forall n', nth_error (whp (fst (exec w o))) j = Some n' -> nvalid n' = nvalid n -> ~ edit o ->
    match o with SetCpd _ _ _ => False | _ => True end -> exists n', nth_error (whp (fst (exec w o))) j = Some n' /\
    ((restructures w o j /\ ~ sets_table w o j /\ nvalid n' = false) \/
     (~ restructures w o j /\ sets_table w o j /\ nvalid n' = true) \/
     (~ restructures w o j /\ ~ sets_table w o j /\ nvalid n' = nvalid n))).
  { intros n' Hn' V X Y. exists n'. split; [exact Hn'|]. right. right. auto. }
  destruct o as [k nm vs|i|u v|u v|r|r vs|r new| |i int a|i x p pv|nm mt|i mt]; try (apply EDIT; exact Logic.I).
  - apply (KEEP n); [|reflexivity|exact (fun x => x)|exact Logic.I]. cbn. rewrite nth_error_app1; [exact Hn|]. apply nth_error_Some. congruence.
  - apply (KEEP n); [|reflexivity|exact (fun x => x)|exact Logic.I]. cbn [exec]. unfold add_node.
    destruct (nth_error (whp w) i); [|exact Hn]. destruct (dmem _ _); exact Hn.
  - cbn in A. destruct A as [(s & ->) FR]. cbn [ref_name] in FR.
    destruct (dget s (lookup (wnet w))) as [i|] eqn:D.
    + destruct (co_named w C s i D) as (m & Hm & _).
      destruct (rename_run w I s new i m (conj D Hm) FR) as (es & h' & E & _ & _ & P).
      apply (KEEP (moved w s new i j n)).
      * cbn [exec]. rewrite E. cbn. rewrite P, Hn. reflexivity.
      * unfold moved. destruct (Nat.eq_dec j i), (is_child_dec w s j); reflexivity.
      * exact (fun x => x).
      * exact Logic.I.
    + apply (KEEP n); [|reflexivity|exact (fun x => x)|exact Logic.I]. cbn [exec]. unfold change_node_name. cbn [ref_name]. rewrite D. exact Hn.
  - apply (KEEP n); [|reflexivity|exact (fun x => x)|exact Logic.I]. exact Hn.
  - (* set_cpd *)
    assert (NRr : ~ restructures w (SetCpd i int a) j) by (apply NR; exact (fun x => x)).
    destruct (Nat.eq_dec i j) as [->|N].
    + unfold sets_table. cbn [exec]. unfold on_node. rewrite Hn. destruct (set_cpd n int a) as [n1|e] eqn:E; cbn.
      * exists n1. rewrite nth_error_list_set, Hn. destruct (Nat.eq_dec j j); [|contradiction]. split; [reflexivity|].
        right. left. split; [exact NRr|]. split; [split; reflexivity|]. unfold set_cpd, store_table in E.
        destruct (nkind n); try discriminate. destruct (list_eq_dec _ _ _); [|discriminate]. injection E as <-. reflexivity.
      * exists n. split; [exact Hn|]. right. right. split; [exact NRr|]. split; [intros [X _]; discriminate|reflexivity].
    + exists n. split.
      * cbn [exec]. unfold on_node. destruct (nth_error (whp w) i) as [m|]; [|exact Hn]. destruct (set_cpd m int a); [|exact Hn].
        cbn. rewrite nth_error_list_set. destruct (Nat.eq_dec j i); [congruence|exact Hn].
      * right. right. split; [exact NRr|]. split; [intros [_ X]; contradiction|reflexivity].
  - (* set_probability *)
    cbn [exec]. destruct (Nat.eq_dec i j) as [->|N].
    + destruct (set_probability (whp w) n x p pv) as [n1|e] eqn:E.
      * apply (KEEP n1); [| |exact (fun x => x)|exact Logic.I].
        -- cbn [exec]. unfold on_node. rewrite Hn, E. cbn. rewrite nth_error_list_set, Hn.
           destruct (Nat.eq_dec j j); [reflexivity|contradiction].
        -- unfold set_probability in E. destruct (nkind n); try discriminate.
           destruct (own_index n x); cbn [rbind] in E; [|discriminate]. destruct (mapM _ _); cbn [rbind] in E; [|discriminate].
           unfold put in E. destruct (ncpd n); [discriminate|]. destruct (assign _ _ _); cbn in E; [|discriminate].
           injection E as <-. reflexivity.
      * apply (KEEP n); [|reflexivity|exact (fun x => x)|exact Logic.I]. cbn [exec]. unfold on_node. rewrite Hn, E. exact Hn.
    + apply (KEEP n); [|reflexivity|exact (fun x => x)|exact Logic.I].
      cbn [exec]. unfold on_node. destruct (nth_error (whp w) i) as [m|]; [|exact Hn].
      destruct (set_probability (whp w) m x p pv); [|exact Hn].
      cbn. rewrite nth_error_list_set. destruct (Nat.eq_dec j i); [congruence|exact Hn].
  - apply (KEEP n); [|reflexivity|exact (fun x => x)|exact Logic.I]. exact Hn.
  - destruct (Nat.eq_dec i j) as [->|N].
    + apply (KEEP (with_meta n mt)); [|reflexivity|exact (fun x => x)|exact Logic.I].
      cbn [exec]. unfold on_node. rewrite Hn. cbn. rewrite nth_error_list_set, Hn. destruct (Nat.eq_dec j j); [reflexivity|contradiction].
    + apply (KEEP n); [|reflexivity|exact (fun x => x)|exact Logic.I].
      cbn [exec]. unfold on_node. destruct (nth_error (whp w) i) as [m|]; [|exact Hn].
      cbn. rewrite nth_error_list_set. destruct (Nat.eq_dec j i); [congruence|exact Hn].
Qed.

Lemma valid_new w o j n' : inv w -> within w o -> nth_error (whp w) j = None ->
  nth_error (whp (fst (exec w o))) j = Some n' -> nvalid n' = false /\ ~ sets_table w o j /\ ~ restructures w o j.
Proof.
  intros I A N H. pose proof (iv_c w I) as C.
  assert (LEN : ~ edit o).
  { intros E. destruct (edits_effect w o I A E) as [_ Y].
    destruct o as [k nm vs|i|u v|u v|r|r vs|r new| |i int a|i x p pv|nm mt|i mt]; try contradiction.
    all: clear Y.
    - cbn [exec] in H. cbn in A. destruct (In_dec_s u (dkeys (lookup (wnet w)))) as [Iu|Nu].
      + destruct (In_dec_s v (dkeys (lookup (wnet w)))) as [Iv|Nv].
        * destruct (in_lookup w C u Iu) as (p & m & Hu). destruct (in_lookup w C v Iv) as (c & nc & Hv).
          rewrite (add_edge_run w u v p m c nc I Hu Hv A) in H. cbn in H. rewrite nth_error_list_set, N in H.
          destruct (Nat.eq_dec j c); discriminate.
        * unfold add_edge in H. rewrite !(graph_mem w C), (proj2 (dmem_nIn v _) Nv), andb_false_r in H. cbn in H. congruence.
      + unfold add_edge in H. rewrite !(graph_mem w C), (proj2 (dmem_nIn u _) Nu) in H. cbn in H. congruence.
    - cbn [exec] in H. destruct (existsb (edge_eqb (u, v)) (gedges (wnet w))) eqn:X.
      + apply edges_bool in X. destruct (co_ends w C u v X) as [Iu Iv].
        destruct (in_lookup w C u Iu) as (p & m & Hu). destruct (in_lookup w C v Iv) as (c & nc & Hv).
        rewrite (remove_edge_run w u v p m c nc I Hu Hv X) in H. cbn in H. rewrite nth_error_list_set, N in H.
        destruct (Nat.eq_dec j c); discriminate.
      + apply edges_boolF in X. rewrite (proj1 (remove_edge_absent w u v I X)) in H. congruence.
    - cbn [exec] in H. set (v := ref_name (whp w) r) in *. destruct (dmem v (lookup (wnet w))) eqn:M.
      + apply dmem_In in M. destruct (in_lookup w C v M) as (p & m & Hv).
        destruct (remove_node_run w v p m I Hv) as (h' & R & S & _ & _). rewrite R in H. cbn in H. specialize (S j). rewrite N, H in S. discriminate.
      + unfold remove_node in H. rewrite (graph_mem w C), M in H. cbn in H. congruence.
    - cbn [exec] in H. set (v := ref_name (whp w) r) in *. destruct (dget v (lookup (wnet w))) as [i|] eqn:D.
      + destruct (co_named w C v i D) as (nv & Hnv & _).
        destruct (change_values_run w v i nv vs I (conj D Hnv)) as (h' & R & _ & _ & A3). rewrite R in H. cbn in H.
        rewrite A3 in H; [congruence|congruence|]. intros (x & _ & Dx). destruct (co_named w C x j Dx) as (m & Hm & _). congruence.
      + unfold change_node_values in H. rewrite D in H. cbn in H. congruence. }
  split; [|split].
  - destruct o as [k nm vs|i|u v|u v|r|r vs|r new| |i int a|i x p pv|nm mt|i mt]; try (exfalso; apply LEN; exact Logic.I).
    + cbn in H. apply nth_error_None in N. rewrite nth_error_app2 in H by exact N.
      destruct (j - length (whp w)) as [|[|]]; cbn in H; try discriminate. injection H as <-. destruct k; reflexivity.
    + cbn [exec] in H. unfold add_node in H. destruct (nth_error (whp w) i); cbn in H; [|congruence].
      destruct (dmem _ _); cbn in H; congruence.
    + cbn in A. destruct A as [(s & ->) FR]. cbn [ref_name] in FR. cbn [exec] in H.
      destruct (dget s (lookup (wnet w))) as [i|] eqn:D.
      * destruct (co_named w C s i D) as (m & Hm & _).
        destruct (rename_run w I s new i m (conj D Hm) FR) as (es & h' & E & _ & _ & P). rewrite E in H. cbn in H. rewrite P, N in H. discriminate.
      * unfold change_node_name in H. cbn [ref_name] in H. rewrite D in H. cbn in H. congruence.
    + cbn in H. congruence.
    + cbn [exec] in H. unfold on_node in H. destruct (nth_error (whp w) i) as [m|] eqn:Hm; cbn in H; [|congruence].
      destruct (set_cpd m int a); cbn in H; [|congruence]. rewrite nth_error_list_set, N in H. destruct (Nat.eq_dec j i); discriminate.
    + cbn [exec] in H. unfold on_node in H. destruct (nth_error (whp w) i) as [m|] eqn:Hm; cbn in H; [|congruence].
      destruct (set_probability (whp w) m x p pv); cbn in H; [|congruence]. rewrite nth_error_list_set, N in H. destruct (Nat.eq_dec j i); discriminate.
    + cbn in H. congruence.
    + cbn [exec] in H. unfold on_node in H. destruct (nth_error (whp w) i) as [m|] eqn:Hm; cbn in H; [|congruence].
      rewrite nth_error_list_set, N in H. destruct (Nat.eq_dec j i); discriminate.
  - intros [X Y]. destruct o; try contradiction. subst. cbn [exec] in X. unfold on_node in X. rewrite N in X. discriminate.
  - intros [_ Y]. destruct o; try contradiction; apply LEN; exact Logic.I.
Qed.

Lemma run_app os1 : forall w os2, run w (os1 ++ os2) = run (run w os1) os2.
Proof. induction os1 as [|o os IH]; intros; [reflexivity|]. cbn. apply IH. Qed.

Lemma all_within_app os1 : forall w os2, all_within w (os1 ++ os2) <-> all_within w os1 /\ all_within (run w os1) os2.
Proof. induction os1 as [|o os IH]; intros; cbn; [tauto|]. rewrite IH. tauto. Qed.

Lemma current_snoc w os o i : table_current w (os ++ [o]) i <->
  sets_table (run w os) o i \/ (table_current w os i /\ ~ restructures (run w os) o i).
Proof.
  split.
  - intros (pre & o1 & post & E & S & P).
    destruct post as [|o2 post] using rev_ind.
    + left. change (pre ++ [o1]) with (pre ++ [o1]) in E. apply app_inj_tail in E. destruct E as [-> ->]. exact S.
    + right. clear IHpost. rewrite app_comm_cons, app_assoc in E. apply app_inj_tail in E. destruct E as [-> <-]. split.
      * exists pre, o1, post. split; [reflexivity|]. split; [exact S|]. intros p1 o' p2 E. apply (P p1 o' (p2 ++ [o])).
        rewrite E, <- app_assoc. reflexivity.
      * apply (P post o []). reflexivity.
  - intros [S|[(pre & o1 & post & -> & S & P) NR]].
    + exists os, o, []. split; [reflexivity|]. split; [exact S|]. intros [|? ?] ? ?; discriminate.
    + exists pre, o1, (post ++ [o]). split; [rewrite <- app_assoc; reflexivity|]. split; [exact S|].
      intros p1 o' p2 E. destruct p2 as [|x p2] using rev_ind.
      * apply app_inj_tail in E. destruct E as [-> ->]. exact NR.
      * clear IHp2. rewrite app_comm_cons, app_assoc in E. apply app_inj_tail in E. destruct E as [E ->]. eapply P, E.
Qed.

Theorem valid_flag os i n : all_within start os -> nth_error (whp (run start os)) i = Some n ->
  (nvalid n = true <-> table_current start os i).
Proof.
  intros A H.
  assert (G : match nth_error (whp (run start os)) i with
              | Some n => nvalid n = true <-> table_current start os i
              | None => ~ table_current start os i end).
  { clear H n. induction os as [|o os IH] using rev_ind.
    - cbn. destruct i; cbn; intros (pre & o & post & E & _); destruct pre; discriminate.
    - apply all_within_app in A. destruct A as [A1 [A2 _]]. specialize (IH A1).
      rewrite run_app. cbn [run]. pose proof (current_snoc start os o i) as CS.
      assert (I : inv (run start os)) by (apply reached_inv, reached_run; [apply reached_start|exact A1]).
      destruct (nth_error (whp (run start os)) i) as [n|] eqn:E.
      + destruct (valid_step (run start os) o i n I A2 E) as (n' & -> & V). rewrite CS, <- IH.
        destruct V as [(X & Y & Z)|[(X & Y & Z)|(X & Y & Z)]]; rewrite Z; intuition congruence.
      + destruct (nth_error (whp (fst (exec (run start os) o))) i) as [n'|] eqn:E'.
        * destruct (valid_new (run start os) o i n' I A2 E E') as (X & Y & Z). rewrite CS, X. split; [discriminate|]. tauto.
        * rewrite CS. intros [X|[X _]]; [|contradiction]. destruct X as [X Y]. destruct o; try contradiction. subst.
          cbn [exec] in X. unfold on_node in X. rewrite E in X. discriminate. }
  rewrite H in G. exact G.
Qed.
