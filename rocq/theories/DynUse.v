(** Every sequence of calls on an object for inference over time. *)
From Verif Require Import Base BaseFacts NDArray NDArrayFacts Factor FactorFacts Exact Spec SpecFacts Order OrderSpec JoinTree TreeSpec JTBuild JTProof JTProof2 JTTop JTJunction JTHistory
  Node Network NetSpec NetFacts NetView Dynamic DynSpec DynPure DynHeap DynPrior DynSoft ErrSpec TreeErrSpec TreeErrProof LeftSpec LeftProof DynUseSpec.

Lemma believed_slice b0 two trans evs : believed b0 two trans evs = slice_bn b0 two trans evs.
Proof.
  induction evs as [|e evs IH]; [reflexivity|]. cbn [believed slice_bn]. rewrite IH. unfold fed. f_equal. apply map_ext. intros n.
  unfold fed1, fed_tables, prior_table, with_table. generalize (slice_bn b0 two trans evs). intros B. clear IH. induction trans as [|[v p] l IHl]; [reflexivity|]. cbn [map find dget fst snd].
  rewrite (String.eqb_sym v). destruct (String.eqb (dn_name n) v); [reflexivity|exact IHl].
Qed.

Lemma updated_dupdate (l : evidence) : NoDup (dkeys l) -> forall e, NoDup (dkeys e) -> dupdate e l = updated e l.
Proof.
  induction l as [|[v x] l IH]; intros NL e NE.
  - cbn. unfold updated. cbn. rewrite app_nil_r. symmetry. rewrite <- (map_id e) at 2. apply map_ext. intros [w y]; reflexivity.
  - cbn in NL. apply NoDup_cons_iff in NL as [Nv NL]. change (dupdate e ((v, x) :: l)) with (dupdate (dset v x e) l).
    assert (Nl : dget v l = None) by (apply dget_None; exact Nv).
    destruct (mem v (dkeys e)) eqn:M.
    + assert (KE : dkeys (dset v x e) = dkeys e).
      { apply mem_In in M. clear - M. induction e as [|[w y] e IH]; [contradiction|]. cbn. destruct (String.eqb_spec v w) as [->|N]; [reflexivity|].
        cbn. f_equal. apply IH. cbn in M. destruct M; [congruence|assumption]. }
      rewrite IH; [|exact NL|rewrite KE; exact NE]. unfold updated. rewrite KE. cbn [filter fst]. rewrite M. cbn [negb]. f_equal.
      clear KE IH NL Nv. apply mem_In in M. revert M NE. induction e as [|[w y] e IHe]; intros M NE; [contradiction|].
      cbn in NE. apply NoDup_cons_iff in NE as [Nw NE]. cbn [dset map fst snd]. destruct (String.eqb_spec v w) as [->|N].
      * cbn [map fst snd dget]. rewrite Nl, String.eqb_refl. f_equal. apply map_ext_in. intros [w' y'] H. cbn [fst snd dget].
        destruct (String.eqb_spec w' w) as [->|]; [|reflexivity]. destruct Nw. apply in_map_iff. exists (w, y'). auto.
      * cbn [map fst snd dget]. assert (Nw' : String.eqb w v = false) by (apply String.eqb_neq; congruence). rewrite Nw'. f_equal. apply IHe; [cbn in M; destruct M; [congruence|assumption]|exact NE].
    + apply mem_nIn in M. rewrite (dset_app e v x M). rewrite IH; [|exact NL|].
      * unfold updated. rewrite map_app. cbn [map fst snd]. rewrite Nl, <- app_assoc. cbn [filter fst dget].
        rewrite (proj2 (mem_nIn v (dkeys e)) M). cbn [negb app]. f_equal; [|f_equal].
        -- apply map_ext_in. intros [w y] H. cbn [fst snd]. destruct (String.eqb_spec w v) as [->|]; [|reflexivity]. destruct M. apply in_map_iff. exists (v, y). auto.
        -- apply filter_ext_in. intros [w y] H. cbn [fst]. f_equal. unfold dkeys. rewrite map_app. cbn [map fst].
           destruct (mem w (map fst e)) eqn:Mw.
           ++ apply mem_In. apply in_or_app. left. apply mem_In, Mw.
           ++ apply mem_nIn. intros C. apply in_app_or in C as [C|[C|[]]]; [apply mem_nIn in Mw; auto|]. subst w. apply Nv. apply in_map_iff. exists (v, y). auto.
      * unfold dkeys. rewrite map_app. apply NoDup_app_disj; [exact NE|repeat constructor; tauto|]. intros w H [<-|[]]. exact (M H).
Qed.
