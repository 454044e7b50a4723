(** The accessors agree on every reachable network; edges after each call. *)
From Verif Require Import Base BaseFacts NDArray Node Factor Exact Spec OrderSpec Network NetSpec NetFacts NetInv NetOps NetOps2 NetRename NetTop NetView NetFrame Access TopoSpec TopoProof.

(** ** Graph and lookup are the same dict *)
Lemma same_dicts_exec w o : inv w -> within w o -> ggraph (wnet w) = lookup (wnet w) -> ggraph (wnet (fst (exec w o))) = lookup (wnet (fst (exec w o))).
Proof.
  intros I A E. pose proof (iv_c w I) as C. destruct o as [k nm vs|i|u v|u v|r|r vs|r new| |i int a|i x p pv|nm mt|i mt]; cbn [exec].
  - exact E.
  - unfold add_node. destruct (nth_error (whp w) i) as [n|]; [|exact E]. destruct (dmem (nname n) (lookup (wnet w))) eqn:M; [exact E|].
    cbn. rewrite E, M. reflexivity.
  - destruct (In_dec_s u (dkeys (lookup (wnet w)))) as [Iu|Nu].
    + destruct (In_dec_s v (dkeys (lookup (wnet w)))) as [Iv|Nv].
      * destruct (in_lookup w C u Iu) as (p & m & Hu). destruct (in_lookup w C v Iv) as (c & n & Hv).
        rewrite (add_edge_run w u v p m c n) by assumption. exact E.
      * unfold add_edge. rewrite !(graph_mem w C), (proj2 (dmem_nIn v _) Nv), andb_false_r. exact E.
    + unfold add_edge. rewrite !(graph_mem w C), (proj2 (dmem_nIn u _) Nu). exact E.
  - destruct (existsb (edge_eqb (u, v)) (gedges (wnet w))) eqn:X.
    + apply edges_bool in X. destruct (co_ends w C u v X) as [Iu Iv].
      destruct (in_lookup w C u Iu) as (p & m & Hu). destruct (in_lookup w C v Iv) as (c & n & Hv).
      rewrite (remove_edge_run w u v p m c n) by assumption. exact E.
    + apply edges_boolF in X. rewrite (proj1 (remove_edge_absent w u v I X)). exact E.
  - destruct (dmem (ref_name (whp w) r) (lookup (wnet w))) eqn:M.
    + apply dmem_In in M. destruct (in_lookup w C _ M) as (p & m & Hv). destruct (remove_node_run w _ p m I Hv) as (h' & -> & _). cbn. rewrite E. reflexivity.
    + unfold remove_node. rewrite (graph_mem w C), M. exact E.
  - destruct (dmem (ref_name (whp w) r) (lookup (wnet w))) eqn:M.
    + apply dmem_In in M. destruct (in_lookup w C _ M) as (p & m & Hv). destruct (change_values_run w _ p m vs I Hv) as (h' & -> & _). exact E.
    + unfold change_node_values. rewrite (proj2 (dget_None _ _) (proj1 (dmem_nIn _ _) M)). exact E.
  - cbn in A. destruct A as [(s & ->) FR]. destruct (dget s (lookup (wnet w))) as [i|] eqn:D.
    + destruct (co_named w C s i D) as (n & Hn & _). destruct (rename_run w I s new i n (conj D Hn) FR) as (es & h' & -> & _). cbn. rewrite E. reflexivity.
    + unfold change_node_name. cbn [ref_name]. rewrite D. exact E.
  - reflexivity.
  - unfold on_node. destruct (nth_error (whp w) i) as [n|]; [|exact E]. destruct (set_cpd n int a); exact E.
  - unfold on_node. destruct (nth_error (whp w) i) as [n|]; [|exact E]. destruct (set_probability (whp w) n x p pv); exact E.
  - exact E.
  - unfold on_node. destruct (nth_error (whp w) i) as [n|]; [|exact E]. exact E.
Qed.

Lemma same_dicts w : reached w -> ggraph (wnet w) = lookup (wnet w).
Proof. induction 1 as [|w o R IH A]; [reflexivity|]. apply same_dicts_exec; [apply reached_inv, R|exact A|exact IH]. Qed.

Section Acc.
Variable w : world.
Hypothesis R : reached w.
Let C : consistent w := structure_ok w R.

Lemma all_nodes_named : map (obj_name (whp w)) (get_all_nodes (wnet w)) = get_all_node_names (wnet w).
Proof.
  unfold get_all_nodes, get_all_node_names. rewrite (same_dicts w R). unfold dkeys. rewrite map_map. apply map_ext_in. intros (v & i) H. cbn [fst snd].
  assert (D : dget v (lookup (wnet w)) = Some i) by (apply In_dget; [apply C|exact H]). destruct (co_named w C v i D) as (n & E & N). unfold obj_name. rewrite E. exact N.
Qed.

Lemma in_all i : In i (get_all_nodes (wnet w)) <-> exists v n, holds w v i n.
Proof.
  unfold get_all_nodes. rewrite (same_dicts w R), in_map_iff. split.
  - intros ((v & j) & <- & H). cbn [snd]. assert (D : dget v (lookup (wnet w)) = Some j) by (apply In_dget; [apply C|exact H]).
    destruct (co_named w C v j D) as (n & E & _). exists v, n. split; assumption.
  - intros (v & n & D & _). exists (v, i). split; [reflexivity|]. apply dget_In, D.
Qed.

Lemma object_ok v : In v (get_all_node_names (wnet w)) -> exists i n, get_object (wnet w) v = Ok i /\ holds w v i n.
Proof. intros H. destruct (in_lookup w C v H) as (i & n & Hn). exists i, n. split; [|exact Hn]. unfold get_object, dget_err. rewrite (proj1 Hn). reflexivity. Qed.

Lemma object_missing v : ~ In v (get_all_node_names (wnet w)) -> get_object (wnet w) v = Err PlainException.
Proof. intros H. unfold get_object, dget_err. rewrite (proj2 (dget_None v _) H). reflexivity. Qed.

Lemma nodes_ok l : incl l (get_all_node_names (wnet w)) ->
  exists os, get_nodes (wnet w) (Some l) = Ok os /\ map (obj_name (whp w)) os = l /\ incl os (get_all_nodes (wnet w)).
Proof.
  cbn [get_nodes]. induction l as [|v l IH]; intros H; [exists []; split; [reflexivity|]; split; [reflexivity|intros x []]|].
  destruct IH as (os & E & N & IN); [intros x X; apply H; right; exact X|]. destruct (object_ok v (H v (or_introl eq_refl))) as (i & n & Ei & Hn).
  exists (i :: os). cbn [mapM]. rewrite Ei. cbn [rbind]. rewrite E. split; [reflexivity|]. split.
  - cbn. rewrite N. f_equal. unfold obj_name. rewrite (proj2 Hn). apply (named w C v i n Hn).
  - intros x [<-|X]; [apply in_all; eauto|apply IN, X].
Qed.

Lemma nodes_missing l v : In v l -> ~ In v (get_all_node_names (wnet w)) -> get_nodes (wnet w) (Some l) = Err PlainException.
Proof.
  cbn [get_nodes]. induction l as [|x l IH]; intros I N; [destruct I|]. cbn [mapM].
  destruct (in_dec string_dec x (get_all_node_names (wnet w))) as [K|K].
  - destruct (object_ok x K) as (i & n & -> & _). cbn [rbind]. destruct I as [->|I]; [contradiction|]. rewrite (IH I N). reflexivity.
  - rewrite (object_missing x K). reflexivity.
Qed.

Lemma children_of v : In v (get_all_node_names (wnet w)) ->
  exists os, get_child_objects (wnet w) v = Ok os /\ NoDup os /\ incl os (get_all_nodes (wnet w)) /\
    forall i n, In i (get_all_nodes (wnet w)) -> nth_error (whp w) i = Some n -> (In i os <-> In v (nporder n)).
Proof.
  intros H. destruct (children_objects w C v) as (os & E & ND & IO & _). exists os. unfold get_child_objects.
  rewrite (graph_mem w C), (proj2 (dmem_In v _) H). split; [exact E|]. split; [exact ND|]. split.
  - intros i Hi. apply IO in Hi as (x & _ & D). destruct (co_named w C x i D) as (n & En & _). apply in_all. exists x, n. split; assumption.
  - intros i n Hi En. apply in_all in Hi as (x & n' & Hx). assert (n' = n) by (destruct Hx; congruence). subst n'.
    rewrite (co_parents w C x i n v Hx), IO. split.
    + intros (y & Ey & Dy). replace x with y; [exact Ey|]. eapply (lookup_inj w C); [exact Dy|apply Hx].
    + intros Ev. exists x. split; [exact Ev|apply Hx].
Qed.

Lemma children_missing v : ~ In v (get_all_node_names (wnet w)) -> get_child_objects (wnet w) v = Err KeyError.
Proof. intros H. unfold get_child_objects. rewrite (graph_mem w C), (proj2 (dmem_nIn v _) H). reflexivity. Qed.

Lemma view_order : border (view w) = bnames (view w).
Proof. rewrite (view_names w C). cbn. rewrite (same_dicts w R). reflexivity. Qed.
End Acc.

(** ** Edges after a call *)
Lemma leads_incl es es' : incl es es' -> forall u v, leads es u v -> leads es' u v.
Proof. intros H u v L. induction L; [apply leads_edge; auto|eapply leads_step; eauto]. Qed.

Lemma acyclic_incl es es' : incl es' es -> acyclic es -> acyclic es'.
Proof. intros H A v L. exact (A v (leads_incl es' es H v v L)). Qed.

(** A path in the larger graph either was there or uses the new edge. *)
Lemma leads_new es u v a b : leads (es ++ [(u, v)]) a b ->
  leads es a b \/ (a = u \/ leads es a u) /\ (v = b \/ leads es v b).
Proof.
  induction 1 as [a b H|a c b H L IH].
  - apply in_app_or in H as [H|[H|[]]]; [left; apply leads_edge, H|]. injection H as -> ->. auto.
  - apply in_app_or in H as [H|[H|[]]].
    + destruct IH as [IH|[IH1 IH2]]; [left; eapply leads_step; eassumption|]. right. split; [|exact IH2]. right.
      destruct IH1 as [->|IH1]; [apply leads_edge, H|eapply leads_step; eassumption].
    + injection H as -> ->. right. split; [left; reflexivity|]. destruct IH as [IH|[_ IH2]]; [right; exact IH|exact IH2].
Qed.

Lemma acyclic_new es u v : acyclic es -> (acyclic (es ++ [(u, v)]) <-> u <> v /\ ~ leads es v u).
Proof.
  intros A. split.
  - intros A'. split.
    + intros ->. apply (A' v), leads_edge, in_or_app. right. left. reflexivity.
    + intros L. apply (A' u). eapply leads_step; [apply in_or_app; right; left; reflexivity|].
      apply (leads_incl es); [apply incl_appl, incl_refl|exact L].
  - intros [N NL] x L. apply leads_new in L as [L|[[->|L1] [E|L2]]].
    + exact (A x L).
    + congruence.
    + exact (NL L2).
    + subst. exact (NL L1).
    + exact (NL (leads_app es v x u L2 L1)).
Qed.

Lemma acyclic_renamed w s new i n es : inv w -> holds w s i n -> s = new \/ ~ In new (dkeys (lookup (wnet w))) ->
  (forall a b, In (a, b) es <-> exists a0 b0, edge w a0 b0 /\ a = ren s new a0 /\ b = ren s new b0) ->
  acyclic (gedges (wnet w)) -> acyclic es.
Proof.
  intros I H FR ES A. pose proof (iv_c w I) as C.
  assert (B : forall a b, leads es a b -> exists a0 b0, leads (gedges (wnet w)) a0 b0 /\ a = ren s new a0 /\ b = ren s new b0 /\
            In a0 (dkeys (lookup (wnet w))) /\ In b0 (dkeys (lookup (wnet w)))).
  { intros a b L. induction L as [a b E|a c b E L (c1 & b0 & L0 & Ec & Eb & Ic & Ib)].
    - apply ES in E as (a0 & b0 & E & -> & ->). destruct (co_ends w C a0 b0 E) as [Ia Ib]. exists a0, b0. split; [apply leads_edge, E|auto].
    - apply ES in E as (a0 & c0 & E & -> & Ec0). destruct (co_ends w C a0 c0 E) as [Ia Ic0].
      assert (c0 = c1). { apply (ren_inj w s new FR); [exact Ic0|exact Ic|congruence]. }
      subst c1. exists a0, b0. split; [eapply leads_step; eassumption|auto]. }
  intros v L. destruct (B v v L) as (a0 & b0 & L0 & E1 & E2 & I1 & I2).
  assert (a0 = b0) by (apply (ren_inj w s new FR); congruence). subst b0. exact (A a0 L0).
Qed.

Lemma acyclic_exec w o : inv w -> within w o -> (forall u v, o <> AddEdge u v) -> acyclic (gedges (wnet w)) -> acyclic (gedges (wnet (fst (exec w o)))).
Proof.
  intros I A NO E. pose proof (iv_c w I) as C. destruct o as [k nm vs|i|u v|u v|r|r vs|r new| |i int a|i x p pv|nm mt|i mt]; cbn [exec].
  - exact E.
  - unfold add_node. destruct (nth_error (whp w) i) as [n|]; [|exact E]. destruct (dmem (nname n) (lookup (wnet w))); exact E.
  - exfalso. apply (NO u v). reflexivity.
  - destruct (existsb (edge_eqb (u, v)) (gedges (wnet w))) eqn:X.
    + apply edges_bool in X. destruct (co_ends w C u v X) as [Iu Iv].
      destruct (in_lookup w C u Iu) as (p & m & Hu). destruct (in_lookup w C v Iv) as (c & n & Hv).
      rewrite (remove_edge_run w u v p m c n) by assumption. cbn. eapply acyclic_incl; [|exact E]. intros e He. apply filter_In in He. apply He.
    + apply edges_boolF in X. rewrite (proj1 (remove_edge_absent w u v I X)). exact E.
  - destruct (dmem (ref_name (whp w) r) (lookup (wnet w))) eqn:M.
    + apply dmem_In in M. destruct (in_lookup w C _ M) as (p & m & Hv). destruct (remove_node_run w _ p m I Hv) as (h' & -> & _). cbn.
      eapply acyclic_incl; [|exact E]. intros e He. apply filter_In in He. apply He.
    + unfold remove_node. rewrite (graph_mem w C), M. exact E.
  - destruct (dmem (ref_name (whp w) r) (lookup (wnet w))) eqn:M.
    + apply dmem_In in M. destruct (in_lookup w C _ M) as (p & m & Hv). destruct (change_values_run w _ p m vs I Hv) as (h' & -> & _). exact E.
    + unfold change_node_values. rewrite (proj2 (dget_None _ _) (proj1 (dmem_nIn _ _) M)). exact E.
  - cbn in A. destruct A as [(s & ->) FR]. destruct (dget s (lookup (wnet w))) as [i|] eqn:D.
    + destruct (co_named w C s i D) as (n & Hn & _). destruct (rename_run w I s new i n (conj D Hn) FR) as (es & h' & -> & _ & ES & _). cbn.
      exact (acyclic_renamed w s new i n es I (conj D Hn) FR ES E).
    + unfold change_node_name. cbn [ref_name]. rewrite D. exact E.
  - intros v L. destruct (leads_ends _ _ _ L) as [(x & []) _].
  - unfold on_node. destruct (nth_error (whp w) i) as [n|]; [|exact E]. destruct (set_cpd n int a); exact E.
  - unfold on_node. destruct (nth_error (whp w) i) as [n|]; [|exact E]. destruct (set_probability (whp w) n x p pv); exact E.
  - exact E.
  - unfold on_node. destruct (nth_error (whp w) i) as [n|]; [|exact E]. exact E.
Qed.

Lemma not_incl_one (l m : list string) : ~ incl l m -> exists v, In v l /\ ~ In v m.
Proof.
  induction l as [|x l IH]; intros H; [destruct H; intros y []|]. destruct (in_dec string_dec x m) as [I|N].
  - destruct IH as (v & Hv & Nv); [intros K; apply H; intros y [<-|Y]; [exact I|apply K, Y]|]. exists v. split; [right; exact Hv|exact Nv].
  - exists x. split; [left; reflexivity|exact N].
Qed.
