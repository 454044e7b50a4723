(** Pruning for arbitrary elimination orders, and connected trees: if the tree
    that build_tree makes is in one piece, the clusters have the running
    intersection property. *)
From Coq Require Import Relations.
From Verif Require Import Base BaseFacts NDArray Factor FactorFacts Exact Spec SpecFacts Order OrderSpec OrderProof
  JoinTree HuginPure Hugin JTProof JTBuild JTBuild2 TreeSpec.

(** ** Pruning keeps the maximal clusters, each once *)
Lemma swap1_perm L R M : NoDup L -> In R L -> In M L -> R <> M -> exists L', swap1 L (R, M) = Ok L' /\ Permutation L (R :: L').
Proof.
  intros ND HR HM N. apply in_split in HR as (A & D & ->). apply in_app_or in HM as [HM|[HM|HM]]; [|congruence|].
  - apply in_split in HM as (A1 & A2 & ->). rewrite <- app_assoc in *. cbn [app] in *.
    exists (A1 ++ A2 ++ M :: D). split; [apply swap1_before, ND|].
    transitivity (A1 ++ R :: M :: A2 ++ D).
    + apply Permutation_app_head. rewrite perm_swap. apply perm_skip. symmetry; apply Permutation_middle.
    + rewrite <- Permutation_middle. apply perm_skip. apply Permutation_app_head. apply Permutation_middle.
  - apply in_split in HM as (D1 & D2 & ->). exists (A ++ D1 ++ M :: D2). split; [apply swap1_after, ND|]. symmetry; apply Permutation_middle.
Qed.

Definition kept (cs L : list (list string)) : Prop :=
  NoDup L /\ incl L cs /\ (forall c, In c cs -> exists d, In d L /\ incl c d) /\
  (forall c d, In c L -> In d cs -> d <> c -> ~ incl c d).

Lemma pruned_kept cs L : pruned cs L <-> rip L /\ kept cs L.
Proof. unfold pruned, kept. tauto. Qed.

Lemma prune_kept adj order cs : clus adj order cs -> NoDup order -> exists L, prune cs = Ok L /\ kept cs L.
Proof.
  intros H ND. assert (NDcs := clus_nodup _ _ _ H ND). unfold prune, swaps.
  assert (G : forall pre post L, cs = pre ++ post -> NoDup L -> incl pre L -> incl L cs ->
    (forall c, In c cs -> exists d, In d L /\ incl c d) ->
    (forall c d, In c L -> In c post -> In d cs -> d <> c -> ~ incl c d) ->
    exists L', foldM swap1 (rev (swaps_up [] pre)) L = Ok L' /\ kept cs L').
  { induction pre as [|c pre IH] using rev_ind; intros post L E NL IP IL CV AC.
    - cbn. exists L. split; [reflexivity|]. split; [exact NL|]. split; [exact IL|]. split; [exact CV|].
      intros c d Hc Hd. apply AC; try assumption. rewrite E in IL. apply IL, Hc.
    - rewrite <- app_assoc in E. cbn [app] in E.
      rewrite swaps_up_app, rev_app_distr. cbn [swaps_up app]. rewrite app_nil_r.
      assert (Nc : ~ In c pre).
      { intros K. rewrite E in NDcs. apply NoDup_remove_2 in NDcs. apply NDcs, in_or_app; auto. }
      assert (Hhead : forall e, In e post -> ~ In (head c) e).
      { destruct (clus_split _ _ _ H pre c post E) as (o1 & v & o2 & l & EO & -> & _ & _ & HC & _).
        intros e He K. cbn [head] in K. apply (clus_in _ _ _ HC e v He) in K.
        rewrite EO in ND. apply NoDup_app_r in ND. inversion ND; contradiction. }
      assert (HcL : In c L) by (apply IP, in_elt).
      assert (Hhc : In (head c) c).
      { destruct (clus_split _ _ _ H pre c post E) as (o1 & v & o2 & l & EO & -> & _). left; reflexivity. }
      assert (IP' : incl pre L) by (intros x Hx; apply IP, in_or_app; auto).
      destruct (last_superset c pre) as [d|] eqn:EL; cbn [rev app foldM].
      + destruct (last_superset_spec _ _ _ EL) as (b1 & b2 & Eb & Icd & _).
        assert (Hd : In d pre) by (rewrite Eb; apply in_elt).
        destruct (swap1_perm L c d NL HcL (IP' d Hd)) as (L' & E1 & P1); [intros ->; contradiction|].
        rewrite E1. cbn [rbind]. assert (NN := Permutation_NoDup P1 NL).
        assert (Ip : incl pre L').
        { intros x Hx. assert (K := IP' x Hx). apply (Permutation_in x P1) in K as [<-|K]; [contradiction|exact K]. }
        apply (IH (c :: post)); [exact E|inversion NN; assumption|exact Ip| | |].
        * intros x Hx. apply IL. apply (Permutation_in x (Permutation_sym P1)). right; exact Hx.
        * intros x Hx. destruct (CV x Hx) as (y & Hy & Ixy). apply (Permutation_in y P1) in Hy as [<-|Hy].
          -- exists d. split; [apply Ip, Hd|]. intros z Hz; apply Icd, Ixy, Hz.
          -- exists y; auto.
        * intros x y Hx Hxp. destruct Hxp as [<-|Hxp].
          -- exfalso. inversion NN; contradiction.
          -- apply AC; [|exact Hxp]. apply (Permutation_in x (Permutation_sym P1)). right; exact Hx.
      + apply (IH (c :: post)); try assumption.
        intros x y Hx [<-|Hxp] Hy Nxy; [|apply AC; assumption].
        rewrite E in Hy. apply in_app_or in Hy as [Hy|[Hy|Hy]]; [|congruence|].
        * apply (last_superset_none _ _ EL y Hy).
        * intros I. apply (Hhead y Hy), I, Hhc. }
  apply (G cs []).
  - rewrite app_nil_r; reflexivity.
  - exact NDcs.
  - apply incl_refl.
  - apply incl_refl.
  - intros c Hc. exists c. split; [exact Hc|apply incl_refl].
  - intros c d _ [].
Qed.

(** ** The links of build_tree *)
Definition link (c : list string) (post : list (list string)) : option (list string) :=
  match jprop c post with [] => None | _ :: _ => find (fun d => subset (jprop c post) d) post end.
Fixpoint links (L : list (list string)) : list (string * string) :=
  match L with
  | [] => []
  | c :: post => match link c post with Some d => (key_of c, key_of d) :: links post | None => links post end
  end.

Lemma link_in c post d : link c post = Some d -> In d post.
Proof. unfold link. destruct (jprop c post); [discriminate|]. intros E. apply find_some in E. tauto. Qed.

Lemma links_in L x y : In (x, y) (links L) -> In x (map key_of L) /\ In y (map key_of L).
Proof.
  induction L as [|c post IH]; cbn; [tauto|]. destruct (link c post) as [d|] eqn:E.
  - intros [K|K]; [|destruct (IH K); auto]. inversion K; subst. split; [auto|]. right. apply in_map, (link_in _ _ _ E).
  - intros K. destruct (IH K); auto.
Qed.

Lemma build_adj L : NoDup (map key_of L) ->
  (forall k, In k (dkeys (tadj (build_tree L))) <-> In k (map key_of L)) /\
  forall k k', In k' (neighbours (tadj (build_tree L)) k) <-> In (k, k') (links L) \/ In (k', k) (links L).
Proof.
  induction L as [|c post IH]; intros ND.
  - cbn. split; [tauto|]. unfold neighbours. cbn. tauto.
  - cbn [map] in ND. inversion ND as [|? ? Nx ND']; subst. destruct (IH ND') as [K A]. clear IH.
    assert (Ka : dkeys (ensure (key_of c) (tadj (build_tree post))) = dkeys (tadj (build_tree post)) ++ [key_of c]) by (apply dkeys_ensure; rewrite K; exact Nx).
    assert (B : (forall k, In k (dkeys (ensure (key_of c) (tadj (build_tree post)))) <-> In k (map key_of (c :: post))) /\
      forall k k', In k' (neighbours (ensure (key_of c) (tadj (build_tree post))) k) <-> In (k, k') (links post) \/ In (k', k) (links post)).
    { split; [intros k; rewrite Ka, in_app_iff, K; cbn; tauto|]. intros k k'. rewrite neighbours_ensure. apply A. }
    cbn [build_tree links]. unfold link. destruct (jprop c post) as [|s0 s] eqn:EJ; [exact B|].
    destruct (find (fun d => subset (s0 :: s) d) post) as [d|] eqn:EF; [|exact B].
    apply find_some in EF as [Hd _]. cbn [add_sep add_clique tnodes tadj tedges tvalid]. destruct B as [B1 B2].
    assert (H1 : In (key_of c) (dkeys (ensure (key_of c) (tadj (build_tree post))))) by (apply B1; left; reflexivity).
    assert (H2 : In (key_of d) (dkeys (ensure (key_of c) (tadj (build_tree post))))) by (apply B1; right; apply in_map, Hd).
    split.
    + intros k. rewrite add_uedge_keys by assumption. apply B1.
    + intros k k'. rewrite add_uedge_spec by assumption. rewrite B2. cbn [In]. split.
      * intros [[H|H]|[[-> ->]|[-> ->]]]; auto.
      * intros [[H|H]|[H|H]]; auto; inversion H; auto.
Qed.

(** A cluster without link keeps what hangs below it apart from the last cluster. *)
Lemma unlinked_apart c post : link c post = None -> post <> [] -> forall pre, NoDup (map key_of (pre ++ c :: post)) ->
  exists S : string -> Prop, S (key_of c) /\ (forall k, S k -> In k (map key_of (pre ++ c :: post))) /\
    (forall k, S k -> ~ In k (map key_of post)) /\
    forall x y, In (x, y) (links (pre ++ c :: post)) -> (S x <-> S y).
Proof.
  intros E Np. induction pre as [|d pre IH]; intros ND; cbn [app] in *.
  - exists (fun k => k = key_of c). cbn [map] in ND. inversion ND as [|? ? Nx ND']; subst.
    split; [reflexivity|]. split; [intros k ->; left; reflexivity|]. split; [intros k ->; exact Nx|].
    intros x y H. cbn [links] in H. rewrite E in H. apply links_in in H as [H1 H2]. split; intros ->; contradiction.
  - cbn [map] in ND. inversion ND as [|? ? Nx ND']; subst. destruct (IH ND') as (S & S1 & S2 & S3 & S4).
    assert (Ip : incl (map key_of post) (map key_of (pre ++ c :: post))).
    { rewrite map_app. cbn. intros k Hk. apply in_or_app; right; right; exact Hk. }
    cbn [links]. destruct (link d (pre ++ c :: post)) as [e|] eqn:EL.
    + exists (fun k => S k \/ (k = key_of d /\ S (key_of e))). split; [auto|]. split; [|split].
      * intros k [H|[-> H]]; [right; apply S2, H|left; reflexivity].
      * intros k [H|[-> H]]; [apply S3, H|]. intros K. apply Nx, Ip, K.
      * assert (Nd : ~ S (key_of d)) by (intros H; apply Nx, S2, H).
        intros x y [H|H].
        -- inversion H; subst. split; [intros [K|[_ K]]; [contradiction|auto]|].
           intros [K|[K1 K2]]; auto.
        -- destruct (links_in _ _ _ H) as [Hx Hy]. rewrite (S4 x y H).
           split; (intros [K|[-> K]]; [auto|contradiction]).
    + exists S. split; [exact S1|]. split; [intros k H; right; apply S2, H|]. split; [exact S3|exact S4].
Qed.

Lemma joined_rip L : NoDup (map key_of L) -> joined (map key_of L) (tree_adj (build_tree L)) -> rip L.
Proof.
  intros ND J pre c post E Np. assert (LK : exists d, link c post = Some d).
  { destruct (link c post) as [d|] eqn:EL; [eauto|exfalso]. subst L.
    destruct (unlinked_apart c post EL Np pre ND) as (S & S1 & S2 & S3 & S4).
    destruct post as [|z post]; [congruence|].
    assert (H : clos_refl_trans string (tree_adj (build_tree (pre ++ c :: z :: post))) (key_of c) (key_of z)).
    { apply J; apply in_map; [apply in_elt|]. apply in_or_app; right; right; left; reflexivity. }
    apply (S3 (key_of z)); [|left; reflexivity].
    apply clos_rt_rt1n in H.
    assert (G : forall a b, clos_refl_trans_1n string (tree_adj (build_tree (pre ++ c :: z :: post))) a b -> S a -> S b).
    { induction 1 as [a|a b e Ab _ IH]; [auto|]. intros Sa. apply IH.
      apply (proj2 (build_adj _ ND)) in Ab as [Ab|Ab]; apply (S4 _ _ Ab), Sa. }
    exact (G _ _ H S1). }
  destruct LK as (d & EL). unfold link in EL. destruct (jprop c post) as [|s0 s] eqn:EJ; [discriminate|]. rewrite <- EJ in EL.
  apply find_some in EL as [Hd Sd]. apply subset_spec in Sd. split.
  - exists d. split; [exact Hd|]. intros v e Hv He Hve. apply Sd, jprop_In. eauto.
  - assert (K : In s0 (jprop c post)) by (rewrite EJ; left; reflexivity). apply jprop_In in K as (K1 & e & He & K2). eauto.
Qed.

Lemma build_keys L k : In k (tree_keys (build_tree L)) <-> In k (map key_of L).
Proof.
  unfold tree_keys. induction L as [|c post IH]; [cbn; tauto|].
  assert (B : In k (dkeys (dset (key_of c) (mkC c (trivial 1%Qc)) (tnodes (build_tree post)))) <-> In k (map key_of (c :: post))).
  { rewrite dkeys_dset. cbn [map In]. rewrite <- IH. destruct (mem (key_of c) (dkeys (tnodes (build_tree post)))) eqn:M.
    - apply mem_In in M. split; [auto|]. intros [<-|H]; assumption.
    - rewrite in_app_iff. cbn. tauto. }
  cbn [build_tree]. destruct (jprop c post); [exact B|]. destruct (find _ post); exact B.
Qed.
