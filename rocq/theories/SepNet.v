(** Removing a node without children: the network that is left. *)
From Verif Require Import Base BaseFacts NDArray Factor Exact Spec Node Network NetSpec NetFacts NetInv NetOps NetView DecNorm SepSpec.

Definition rest_of (b : bn) (v : string) : list string := filter (fun u => negb (String.eqb v u)) (bnames b).

Lemma rest_of_In b v u : In u (rest_of b v) <-> In u (bnames b) /\ u <> v.
Proof. unfold rest_of. rewrite filter_In, negb_true_iff, String.eqb_neq. intuition congruence. Qed.

Lemma Sep_ddel {A} v (l : dict A) : ~ In v (dkeys l) -> l = ddel v l.
Proof.
  induction l as [|(u & j) l IH]; intros N; [reflexivity|]. cbn [ddel]. cbn in N. rewrite eqb_neq_s by (intros E; apply N; left; symmetry; exact E).
  rewrite <- IH; tauto.
Qed.

Lemma remove_leaf w v i n : consistent w -> holds w v i n -> (forall x, ~ edge w v x) ->
  exists w', remove_node w v = (w', Ok tt) /\ view w' = restrict (view w) (rest_of (view w) v).
Proof.
  intros C H NE. unfold remove_node. rewrite (graph_mem w C). unfold dmem at 1. rewrite (proj1 H).
  assert (SU : succs (wnet w) v = []).
  { unfold succs. assert (F : filter (fun e => String.eqb v (fst e)) (gedges (wnet w)) = []).
    { destruct (filter _ _) as [|(a & c) l] eqn:E; [reflexivity|]. exfalso.
      assert (X : In (a, c) (filter (fun e => String.eqb v (fst e)) (gedges (wnet w)))) by (rewrite E; left; reflexivity).
      apply filter_In in X as [X Y]. cbn in Y. apply String.eqb_eq in Y. subst a. exact (NE c X). }
    rewrite F. reflexivity. }
  rewrite SU. cbn [for_keys andthen]. unfold ret at 1. cbn [andthen]. cbn [graph_remove_node lookup]. unfold dmem. rewrite (proj1 H).
  eexists. split; [reflexivity|]. unfold view, restrict. cbn [whp wnet with_net set_lookup lookup ggraph gedges graph_remove_node bnodes border bedges].
  f_equal.
  - (* nodes *)
    assert (G : forall l, (forall u j, In (u, j) l -> In u (dkeys (lookup (wnet w))) /\ nname (deref (whp w) j) = u) -> NoDup (dkeys l) ->
      map (fun p => snapshot_node (whp w) (deref (whp w) (snd p))) (ddel v l) =
      filter (fun n0 => mem (dn_name n0) (rest_of (view w) v)) (map (fun p => snapshot_node (whp w) (deref (whp w) (snd p))) l)).
    { induction l as [|(u & j) l IH]; intros K ND; [reflexivity|]. cbn [ddel map filter snd]. inversion ND as [|? ? Nu ND']; subst.
      destruct (K u j (or_introl eq_refl)) as [Ku En].
      assert (K' : forall u j, In (u, j) l -> In u (dkeys (lookup (wnet w))) /\ nname (deref (whp w) j) = u) by (intros; apply K; right; assumption).
      change (dn_name (snapshot_node (whp w) (deref (whp w) j))) with (nname (deref (whp w) j)). rewrite En.
      destruct (String.eqb_spec v u) as [<-|N].
      - assert (M : mem v (rest_of (view w) v) = false) by (apply mem_nIn; rewrite rest_of_In; tauto). rewrite M.
        rewrite <- (IH K' ND'). rewrite <- (Sep_ddel v l Nu). reflexivity.
      - assert (M : mem u (rest_of (view w) v) = true) by (apply mem_In, rest_of_In; rewrite (view_names w C); auto). rewrite M.
        cbn [map snd]. f_equal. apply IH; assumption. }
    apply G; [|apply C]. intros u j X. split; [exact (in_map fst _ _ X)|]. apply In_dget in X; [|apply C].
    destruct (co_named w C u j X) as (m & E1 & E2). unfold deref. rewrite (nth_error_nth _ _ _ E1). exact E2.
  - assert (G : forall l : dict oid, incl (dkeys l) (bnames (view w)) -> NoDup (dkeys l) -> dkeys (ddel v l) = filter (fun u => mem u (rest_of (view w) v)) (dkeys l)).
    { induction l as [|(u & j) l IH]; intros K ND; [reflexivity|]. cbn [ddel dkeys map filter fst]. inversion ND as [|? ? Nu ND']; subst.
      assert (K' : incl (dkeys l) (bnames (view w))) by (intros x Hx; apply K; right; exact Hx). fold (dkeys l).
      destruct (String.eqb_spec v u) as [<-|N].
      - assert (M : mem v (rest_of (view w) v) = false) by (apply mem_nIn; rewrite rest_of_In; tauto). rewrite M.
        rewrite <- (IH K' ND'). rewrite <- (Sep_ddel v l Nu). reflexivity.
      - assert (M : mem u (rest_of (view w) v) = true) by (apply mem_In, rest_of_In; split; [apply K; left; reflexivity|congruence]). rewrite M.
        cbn [map fst dkeys]. f_equal. apply IH; assumption. }
    apply G; [|apply C]. intros u Hu. rewrite (view_names w C). apply dget_key in Hu as (j & Hj). apply (co_same w C) in Hj. eapply dget_Some_key, Hj.
  - apply filter_ext_in. intros (a & c) X. cbn [fst snd]. destruct (co_ends w C a c X) as [Ia Ic].
    assert (M : forall u, In u (dkeys (lookup (wnet w))) -> mem u (rest_of (view w) v) = negb (String.eqb v u)).
    { intros u Hu. destruct (String.eqb_spec v u) as [<-|N]; cbn [negb].
      - apply mem_nIn. rewrite rest_of_In. tauto.
      - apply mem_In, rest_of_In. rewrite (view_names w C). auto. }
    rewrite !M by assumption. reflexivity.
Qed.
