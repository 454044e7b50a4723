(** get_min_degree_order: permutation, greedy minimal degree. *)
From Verif Require Import Base BaseFacts NDArray Factor Exact Order OrderSpec.

(** Undirected graph invariants: distinct nodes, simple symmetric adjacency. *)
Record ug (g : ugraph) : Prop := {
  ug_keys : NoDup (dkeys g);
  ug_nbrs : forall v, NoDup (neighbours g v);
  ug_in : forall u v, In v (neighbours g u) -> In u (dkeys g) /\ In v (dkeys g) /\ u <> v;
  ug_sym : forall u v, In v (neighbours g u) -> In u (neighbours g v)
}.

Lemma neighbours_dset g u l w :
  neighbours (dset u l g) w = if String.eqb w u then l else neighbours g w.
Proof. unfold neighbours. rewrite dget_dset. destruct (String.eqb w u); reflexivity. Qed.

Lemma ensure_id u g : In u (dkeys g) -> ensure u g = g.
Proof. intros H. unfold ensure. apply dmem_In in H. rewrite H. reflexivity. Qed.

Lemma add_nbr_spec u v g w x : In u (dkeys g) ->
  (In x (neighbours (add_nbr u v g) w) <-> In x (neighbours g w) \/ (w = u /\ x = v)).
Proof.
  intros H. unfold add_nbr. destruct (mem v (neighbours g u)) eqn:M.
  - apply mem_In in M. split; [tauto|]. intros [K|[-> ->]]; assumption.
  - rewrite neighbours_dset. destruct (String.eqb_spec w u) as [->|n].
    + rewrite in_app_iff. cbn. intuition congruence.
    + intuition congruence.
Qed.

Lemma add_nbr_keys u v g : In u (dkeys g) -> dkeys (add_nbr u v g) = dkeys g.
Proof.
  intros H. unfold add_nbr. destruct (mem v (neighbours g u)); [reflexivity|].
  rewrite dkeys_dset. apply mem_In in H. rewrite H. reflexivity.
Qed.

Lemma add_nbr_nodup u v g : (forall w, NoDup (neighbours g w)) -> forall w, NoDup (neighbours (add_nbr u v g) w).
Proof.
  intros H w. unfold add_nbr. destruct (mem v (neighbours g u)) eqn:M; [apply H|].
  rewrite neighbours_dset. destruct (String.eqb w u); [|apply H].
  apply mem_nIn in M. apply (Permutation_NoDup (l := v :: neighbours g u)).
  - apply Permutation_cons_append. - constructor; [exact M|apply H].
Qed.

Lemma add_uedge_keys u v g : In u (dkeys g) -> In v (dkeys g) -> dkeys (add_uedge u v g) = dkeys g.
Proof.
  intros Hu Hv. unfold add_uedge. rewrite (ensure_id u g Hu), (ensure_id v g Hv).
  assert (E := add_nbr_keys u v g Hu). rewrite add_nbr_keys; [exact E|]. rewrite E; exact Hv.
Qed.

Lemma add_uedge_spec u v g w x : In u (dkeys g) -> In v (dkeys g) ->
  (In x (neighbours (add_uedge u v g) w) <->
   In x (neighbours g w) \/ (w = u /\ x = v) \/ (w = v /\ x = u)).
Proof.
  intros Hu Hv. unfold add_uedge. rewrite (ensure_id u g Hu), (ensure_id v g Hv).
  assert (E := add_nbr_keys u v g Hu).
  rewrite add_nbr_spec by (rewrite E; exact Hv). rewrite add_nbr_spec by exact Hu. tauto.
Qed.

Lemma add_uedge_ug u v g : ug g -> In u (dkeys g) -> In v (dkeys g) -> u <> v -> ug (add_uedge u v g).
Proof.
  intros G Hu Hv N. assert (K := add_uedge_keys u v g Hu Hv). split.
  - rewrite K. apply G.
  - unfold add_uedge. rewrite (ensure_id u g Hu), (ensure_id v g Hv). do 2 apply add_nbr_nodup. apply G.
  - intros w x. rewrite add_uedge_spec, K by assumption.
    intros [H|[[-> ->]|[-> ->]]]; [apply (ug_in _ G), H|auto|auto].
  - intros w x. rewrite !add_uedge_spec by assumption.
    intros [H|[[-> ->]|[-> ->]]]; [left; apply (ug_sym _ G), H|tauto|tauto].
Qed.

Lemma to_undirected_spec b : wf_graph b ->
  ug (to_undirected b) /\ dkeys (to_undirected b) = border b /\
  forall u v, In v (neighbours (to_undirected b) u) <-> linked0 b u v.
Proof.
  intros W. assert (NB : NoDup (border b)) by (apply (Permutation_NoDup (wg_nodes _ W)), W).
  assert (IB : forall v, In v (bnames b) <-> In v (border b)).
  { intros v; split; apply Permutation_in; [apply W|apply Permutation_sym, W]. }
  unfold to_undirected. set (es := flat_map _ (border b)).
  assert (Es : forall u v, In (u, v) es <-> In (u, v) (bedges b)).
  { intros u v. unfold es. rewrite in_flat_map. split.
    - intros (x & _ & H). apply filter_In in H. tauto.
    - intros H. exists u. split; [apply IB, (wg_edges _ W u v H)|]. apply filter_In. split; [exact H|].
      cbn. apply String.eqb_refl. }
  assert (G : forall l g, ug g -> dkeys g = border b -> (forall u v, In (u, v) l -> In (u, v) (bedges b)) ->
    ug (fold_left (fun g e => add_uedge (fst e) (snd e) g) l g) /\
    dkeys (fold_left (fun g e => add_uedge (fst e) (snd e) g) l g) = border b /\
    forall u v, In v (neighbours (fold_left (fun g e => add_uedge (fst e) (snd e) g) l g) u) <->
       In v (neighbours g u) \/ In (u, v) l \/ In (v, u) l).
  { induction l as [|[x y] l IH]; intros g Ug K H; cbn.
    - split; [exact Ug|]. split; [exact K|]. tauto.
    - destruct (wg_edges _ W x y (H x y (or_introl eq_refl))) as (Hx & Hy & N).
      apply IB in Hx, Hy. rewrite <- K in Hx, Hy.
      destruct (IH (add_uedge x y g)) as (U1 & U2 & U3).
      + apply add_uedge_ug; assumption.
      + rewrite add_uedge_keys by assumption. exact K.
      + intros u v Huv; apply H; right; exact Huv.
      + split; [exact U1|]. split; [exact U2|]. intros u v. rewrite U3, add_uedge_spec by assumption.
        intuition congruence. }
  assert (K0 : dkeys (map (fun v => (v, [] : list string)) (border b)) = border b).
  { unfold dkeys. rewrite map_map. apply map_id. }
  assert (N0 : forall v, neighbours (map (fun v => (v, [] : list string)) (border b)) v = []).
  { intros v. unfold neighbours. destruct (dget v _) eqn:E; [|reflexivity].
    apply dget_In, in_map_iff in E as (w & Ew & _). congruence. }
  destruct (G es (map (fun v => (v, [])) (border b))) as (U1 & U2 & U3).
  - split.
    + rewrite K0; exact NB. + intros v; rewrite N0; constructor.
    + intros u v; rewrite N0; intros []. + intros u v; rewrite N0; intros [].
  - exact K0. - intros u v H; apply Es, H.
  - split; [exact U1|]. split; [exact U2|]. intros u v. rewrite U3, N0, !Es. unfold linked0. cbn. tauto.
Qed.

(** Connecting the neighbours. *)
Lemma connect1_spec p nbrs g : ug g -> In p (dkeys g) -> incl nbrs (dkeys g) ->
  ug (connect1 p nbrs g) /\ dkeys (connect1 p nbrs g) = dkeys g /\
  forall w x, In x (neighbours (connect1 p nbrs g) w) <->
    In x (neighbours g w) \/ (w <> x /\ ((w = p /\ In x nbrs) \/ (x = p /\ In w nbrs))).
Proof.
  revert g. unfold connect1. induction nbrs as [|y nbrs IH]; intros g U Hp I; cbn [fold_left].
  - split; [exact U|]. split; [reflexivity|]. intros w x. cbn. tauto.
  - assert (Hy : In y (dkeys g)) by (apply I; left; reflexivity).
    destruct (String.eqb_spec p y) as [->|N]; cbn [negb andb].
    + destruct (IH g U Hp) as (U1 & K1 & V1); [intros z Hz; apply I; right; exact Hz|].
      split; [exact U1|]. split; [exact K1|]. intros w x. rewrite V1. cbn. intuition congruence.
    + destruct (mem y (neighbours g p)) eqn:M; cbn [negb].
      * apply mem_In in M. destruct (IH g U Hp) as (U1 & K1 & V1); [intros z Hz; apply I; right; exact Hz|].
        split; [exact U1|]. split; [exact K1|]. intros w x. rewrite V1. cbn.
        split; [tauto|]. intros [H|(n & [[-> [->|H]]|[-> [->|H]]])]; try tauto.
        left. apply (ug_sym _ U), M.
      * destruct (IH (add_uedge p y g)) as (U1 & K1 & V1).
        -- apply add_uedge_ug; assumption.
        -- rewrite add_uedge_keys; assumption.
        -- intros z Hz. rewrite add_uedge_keys by assumption. apply I; right; exact Hz.
        -- split; [exact U1|]. split; [rewrite K1; apply add_uedge_keys; assumption|].
           intros w x. rewrite V1, add_uedge_spec by assumption. cbn. intuition congruence.
Qed.

Lemma connect_spec nbrs g : ug g -> incl nbrs (dkeys g) ->
  ug (connect nbrs g) /\ dkeys (connect nbrs g) = dkeys g /\
  forall w x, In x (neighbours (connect nbrs g) w) <->
    In x (neighbours g w) \/ (w <> x /\ In w nbrs /\ In x nbrs).
Proof.
  intros U I. unfold connect.
  assert (G : forall l g, ug g -> incl l nbrs -> incl nbrs (dkeys g) ->
    ug (fold_left (fun g p => connect1 p nbrs g) l g) /\
    dkeys (fold_left (fun g p => connect1 p nbrs g) l g) = dkeys g /\
    forall w x, In x (neighbours (fold_left (fun g p => connect1 p nbrs g) l g) w) <->
      In x (neighbours g w) \/ (w <> x /\ ((In w l /\ In x nbrs) \/ (In x l /\ In w nbrs)))).
  { clear g U I. induction l as [|p l IH]; intros g U Il I; cbn [fold_left].
    - split; [exact U|]. split; [reflexivity|]. intros; cbn; tauto.
    - destruct (connect1_spec p nbrs g U) as (U1 & K1 & V1); [apply I, Il; left; reflexivity|exact I|].
      destruct (IH (connect1 p nbrs g) U1) as (U2 & K2 & V2).
      + intros z Hz; apply Il; right; exact Hz. + rewrite K1; exact I.
      + split; [exact U2|]. split; [rewrite K2; exact K1|]. intros w x. rewrite V2, V1. cbn. intuition congruence. }
  destruct (G nbrs g U (incl_refl _) I) as (U1 & K1 & V1). split; [exact U1|]. split; [exact K1|].
  intros w x. rewrite V1. tauto.
Qed.

(** Removing a node. *)
Lemma remove_unode_spec v g : ug g ->
  ug (remove_unode v g) /\ (forall w, In w (dkeys (remove_unode v g)) <-> In w (dkeys g) /\ w <> v) /\
  forall w x, In x (neighbours (remove_unode v g) w) <-> In x (neighbours g w) /\ w <> v /\ x <> v.
Proof.
  intros U.
  assert (K : dkeys (remove_unode v g) = remove1 v (dkeys g)).
  { unfold remove_unode. rewrite <- dkeys_ddel. unfold dkeys. rewrite map_map. reflexivity. }
  assert (D : forall w, neighbours (remove_unode v g) w = if String.eqb w v then [] else remove1 v (neighbours g w)).
  { intros w. unfold neighbours, remove_unode.
    assert (M : forall d, dget w (map (fun p => (fst p, remove1 v (snd p))) d) = option_map (remove1 v) (dget w d)).
    { induction d as [|[k l] d IH]; cbn; [reflexivity|]. destruct (String.eqb w k); [reflexivity|exact IH]. }
    rewrite M. destruct (String.eqb_spec w v) as [->|n].
    - rewrite dget_ddel_eq by apply U. reflexivity.
    - rewrite dget_ddel_neq by exact n. destruct (dget w g); reflexivity. }
  assert (N : forall w x, In x (neighbours (remove_unode v g) w) <-> In x (neighbours g w) /\ w <> v /\ x <> v).
  { intros w x. rewrite D. destruct (String.eqb_spec w v) as [->|n].
    - cbn; tauto. - rewrite remove1_In by apply U. tauto. }
  assert (KI : forall w, In w (dkeys (remove_unode v g)) <-> In w (dkeys g) /\ w <> v).
  { intros w. rewrite K. apply remove1_In, U. }
  split; [|split; [exact KI|exact N]]. split.
  - rewrite K. apply remove1_NoDup, U.
  - intros w. rewrite D. destruct (String.eqb w v); [constructor|apply remove1_NoDup, U].
  - intros u w. rewrite N, !KI. intros (H & n1 & n2). apply (ug_in _ U) in H. tauto.
  - intros u w. rewrite !N. intros (H & n1 & n2). split; [apply (ug_sym _ U), H|tauto].
Qed.

Lemma remove_unode_length v g : In v (dkeys g) -> S (length (remove_unode v g)) = length g.
Proof.
  intros H. unfold remove_unode. rewrite map_length.
  rewrite <- (map_length fst (ddel v g)), <- (map_length fst g).
  change (map fst (ddel v g)) with (dkeys (ddel v g)). change (map fst g) with (dkeys g).
  rewrite dkeys_ddel. apply remove1_length, H.
Qed.

Lemma min_from_spec g l best :
  In (min_from g best l) (best :: l) /\ forall w, In w (best :: l) -> degree g (min_from g best l) <= degree g w.
Proof.
  revert best. induction l as [|v l IH]; intros best; cbn [min_from].
  - split; [left; reflexivity|]. intros w [<-|[]]. lia.
  - destruct (Nat.ltb_spec (degree g v) (degree g best)) as [L|L].
    + destruct (IH v) as [I M]. split; [destruct I as [<-|I]; cbn; auto|].
      intros w [<-|[<-|H]].
      * assert (X := M v (or_introl eq_refl)). lia.
      * apply M; left; reflexivity. * apply M; right; exact H.
    + destruct (IH best) as [I M]. split; [destruct I as [<-|I]; cbn; auto|].
      intros w [<-|[<-|H]].
      * apply M; left; reflexivity.
      * assert (X := M best (or_introl eq_refl)). lia. * apply M; right; exact H.
Qed.

Lemma degree_nbrs g v : ug g -> degree g v = length (neighbours g v).
Proof.
  intros U. unfold degree. destruct (mem v (neighbours g v)) eqn:M; [|lia].
  apply mem_In in M. apply (ug_in _ U) in M. tauto.
Qed.

(** One invariant for the loop: [g] is the graph after eliminating [done]. *)
Lemma loop_spec b k : forall g done, ug g -> length g = k ->
  (forall v, In v (dkeys g) <-> In v (bnames b) /\ ~ In v done) ->
  (forall u v, In v (neighbours g u) <-> linked b done u v /\ ~ In u done /\ ~ In v done) ->
  exists r, min_degree_loop k g = Ok r /\ Permutation (dkeys g) r /\
    forall pre v post, r = pre ++ v :: post -> forall w, In w (v :: post) -> forall n m,
      degree_is b (rev pre ++ done) v n -> degree_is b (rev pre ++ done) w m -> n <= m.
Proof.
  induction k as [|k IH]; intros g done U L K N; cbn [min_degree_loop].
  - exists []. split; [reflexivity|]. split.
    + destruct g; [constructor|discriminate].
    + intros pre v post E. destruct pre; discriminate.
  - unfold min_node. destruct (dkeys g) as [|v0 l0] eqn:EK.
    { destruct g; discriminate. }
    cbn [rbind]. destruct (min_from_spec g l0 v0) as [Hv Hmin]. set (v := min_from g v0 l0) in *.
    rewrite <- EK in Hv, Hmin, K.
    assert (I : incl (neighbours g v) (dkeys g)) by (intros x Hx; apply (ug_in _ U v x Hx)).
    destruct (connect_spec (neighbours g v) g U I) as (U1 & K1 & V1).
    set (g1 := connect (neighbours g v) g) in *.
    destruct (remove_unode_spec v g1 U1) as (U2 & K2 & V2). set (g2 := remove_unode v g1) in *.
    assert (L2 : length g2 = k).
    { assert (X : S (length g2) = length g1) by (apply remove_unode_length; rewrite K1; exact Hv).
      assert (Y : length g1 = length g).
      { rewrite <- (map_length fst g1), <- (map_length fst g). change (length (dkeys g1) = length (dkeys g)).
        rewrite K1; reflexivity. } lia. }
    destruct (IH g2 (v :: done) U2 L2) as (r & E & P & M).
    + intros w. rewrite K2, K1, K. cbn. intuition congruence.
    + intros w x. rewrite V2, V1, !N. cbn [linked In].
      assert (X : In w (neighbours g v) <-> linked b done w v /\ ~ In w done /\ ~ In v done).
      { rewrite <- N. split; apply (ug_sym _ U). }
      rewrite N in X. rewrite X. 
      assert (Nv : ~ In v done) by (apply K, Hv).
      destruct (string_dec w v) as [->|n1]; [|destruct (string_dec x v) as [->|n2]]; intuition congruence.
    + rewrite E. cbn [rbind]. exists (v :: r). split; [reflexivity|]. split.
      * assert (Q : Permutation (dkeys g) (v :: dkeys g2)).
        { apply NoDup_Permutation; [apply U| |].
          - constructor; [rewrite K2; tauto|apply U2].
          - intros w. cbn. rewrite K2, K1. split.
            + intros H. destruct (string_dec w v) as [->|n]; [left; reflexivity|right; tauto].
            + intros [<-|[H _]]; assumption. }
        rewrite <- EK. rewrite Q. constructor. exact P.
      * intros pre w post Er. destruct pre as [|x pre]; cbn in Er; inversion Er; subst.
        -- intros u Hu n m Dn Dm.
           assert (Du : forall u n, In u (dkeys g) -> degree_is b done u n -> n = degree g u).
           { intros u' n' Hu' (l & ND & <- & Hl). rewrite degree_nbrs by exact U.
             apply Nat.le_antisymm.
             - apply NoDup_incl_length; [exact ND|]. intros x Hx. apply N. apply Hl in Hx. apply K in Hu'. tauto.
             - apply NoDup_incl_length; [apply U|]. intros x Hx. apply Hl. apply N in Hx. tauto. }
           assert (Hug : In u (dkeys g)).
           { destruct Hu as [<-|Hu]; [exact Hv|]. apply (Permutation_in _ (Permutation_sym P)) in Hu.
             apply K2 in Hu as [Hu _]. rewrite <- K1; exact Hu. }
           cbn in Dn, Dm. rewrite (Du _ _ Hv Dn), (Du _ _ Hug Dm). apply Hmin, Hug.
        -- cbn [rev]. rewrite <- app_assoc. cbn [app]. eapply M. reflexivity.
Qed.

Lemma min_degree_greedy b : wf_graph b ->
  exists r, get_min_degree_order b = Ok r /\ Permutation (bnames b) r /\
    forall pre v post, r = pre ++ v :: post -> forall w, In w (v :: post) -> forall n m,
      degree_is b (rev pre) v n -> degree_is b (rev pre) w m -> n <= m.
Proof.
  intros W. destruct (to_undirected_spec b W) as (U & K & N).
  assert (IB : forall v, In v (bnames b) <-> In v (border b)).
  { intros v; split; apply Permutation_in; [apply W|apply Permutation_sym, W]. }
  assert (L : length (to_undirected b) = length (bnodes b)).
  { rewrite <- (map_length fst). change (length (dkeys (to_undirected b)) = length (bnodes b)). rewrite K.
    rewrite <- (Permutation_length (wg_nodes _ W)). unfold bnames. apply map_length. }
  destruct (loop_spec b _ (to_undirected b) [] U L) as (r & E & P & M).
  - intros v. rewrite K, IB. cbn; tauto.
  - intros u v. rewrite N. cbn. tauto.
  - exists r. split; [exact E|]. split.
    + rewrite <- P, K. apply W.
    + intros pre v post Er w Hw n m Dn Dm. apply (M pre v post Er w Hw n m); rewrite app_nil_r; assumption.
Qed.
