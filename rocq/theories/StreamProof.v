(** Counting while sampling or sampling first makes no difference. *)
From Verif Require Import Base BaseFacts NDArray Factor Exact Spec SpecFacts OrderSpec TreeSpec Sampling MCSpec SampleErrSpec SampleErrProof Stream.

Lemma counted_ok f vv n : forall acc l a, yields f n acc = Ok l -> counted f vv n acc a = foldM (count_sample vv) l a.
Proof.
  induction n as [|n IH]; intros acc l a E; cbn [yields counted] in *; [injection E as <-; reflexivity|].
  destruct (f acc) as [acc'|]; cbn [rbind] in *; [|discriminate]. destruct (yields f n acc') as [l'|] eqn:Y; cbn [rbind] in E; [|discriminate]. injection E as <-.
  cbn [foldM]. destruct (count_sample vv a (fst acc')) as [a'|e]; cbn [rbind]; [|reflexivity]. apply IH, Y.
Qed.

Lemma counted_err f vv (P : state -> Prop) n : (forall acc acc', P (fst acc) -> f acc = Ok acc' -> P (fst acc')) ->
  (forall a s e, P s -> count_sample vv a s = Err e -> e = ValueError) ->
  forall acc a, P (fst acc) -> yields f n acc = Err ValueError -> counted f vv n acc a = Err ValueError.
Proof.
  intros HF HC. induction n as [|n IH]; intros acc a HP E; cbn [yields counted] in *; [discriminate|].
  destruct (f acc) as [acc'|e] eqn:F; cbn [rbind] in *; [|congruence]. assert (HP' := HF _ _ HP F). destruct (yields f n acc') as [l'|e] eqn:Y; cbn [rbind] in E; [discriminate|].
  destruct (count_sample vv a (fst acc')) as [a'|e'] eqn:C; cbn [rbind]; [apply IH; [exact HP'|congruence]|]. rewrite (HC _ _ _ HP' C). reflexivity.
Qed.

Section S.
Variables (b : bn) (g : rng) (ev : state) (order : list string).
Hypotheses (SN : sampled_net b) (RG : rng_ok g) (TO : topological b order) (ND : NoDup (dkeys ev)).

Lemma looked vs : incl vs (bnames b) -> forall d, (forall v, In v (dkeys d) -> In v (bnames b)) ->
  exists vv, foldM (fun d v => let* n := get_node b v in Ok (dset v (dn_values n) d)) vs d = Ok vv /\ forall v, In v (dkeys vv) -> In v (bnames b).
Proof.
  induction vs as [|v vs IH]; intros I d H; cbn [foldM]; [eauto|]. assert (Iv := I v (or_introl eq_refl)).
  destruct (get_node b v) as [n|e] eqn:G; cbn [rbind].
  - apply IH; [intros u Hu; apply I; now right|]. intros u Hu. apply In_dkeys_dset in Hu as [->|Hu]; auto.
  - exfalso. unfold get_node in G. destruct (find _ _) eqn:F; [discriminate|]. apply in_map_iff in Iv as (n & <- & Hn).
    assert (X := find_none _ _ F n Hn). cbn beta in X. rewrite String.eqb_refl in X. discriminate.
Qed.

Lemma count_value vv a s e : (forall v, In v (dkeys vv) -> In v (bnames b)) -> started b ev s -> count_sample vv a s = Err e -> e = ValueError.
Proof.
  intros I [_ S] E. unfold count_sample in E. destruct (mapM _ vv) as [idx|e'] eqn:M; cbn [rbind] in E; [discriminate|]. injection E as <-.
  assert (X : forall l, incl l vv -> forall e, mapM (fun p => let* x := dget_err KeyError (fst p) s in py_index x (snd p)) l = Err e -> e = ValueError).
  { induction l as [|p l IH]; intros L e E; cbn [mapM] in E; [discriminate|]. destruct (S (fst p)) as (x & Hx & _); [apply I, (in_map fst), L; now left|].
    unfold dget_err in E. rewrite Hx in E. cbn [rbind] in E. unfold py_index in E. destruct (index_of x (snd p)); cbn [rbind] in E; [|congruence].
    destruct (mapM _ l) as [r|e0] eqn:R; cbn [rbind] in E; [discriminate|]. injection E as <-. apply (IH (fun y Hy => L y (or_intror Hy)) e0 eq_refl). }
  exact (X vv (fun y Hy => Hy) e' M).
Qed.

Theorem streamed_same t burnIn full N vs : mcmc_streamed t burnIn full N g b order vs ev = mcmc_marginals t burnIn full N g b order vs ev.
Proof.
  unfold mcmc_streamed, mcmc_marginals. destruct (get_sample g 0 b order ev) as [init|e] eqn:GS; cbn [rbind]; [|reflexivity].
  assert (ST : started b ev (fst init)).
  { destruct (undrawable_all b ev) as [U|U].
    - rewrite (proj1 (sample_outcome b SN g RG ev order TO 0 ND) U) in GS. discriminate.
    - destruct (proj2 (sample_outcome b SN g RG ev order TO 0 ND) U) as (st & E & H). rewrite E in GS. injection GS as <-. exact H. }
  destruct (unknown_dec b vs) as [U|I]; [rewrite (lookup_outcome b SN vs [] U); reflexivity|].
  destruct (looked vs I []) as (vv & E & K); [intros v []|]. rewrite E. cbn [rbind].
  unfold generate_chain, vars_to_change. cbn [rbind]. set (f := step t full g b (free_vars b ev)).
  destruct (burn f burnIn init) as [acc|e] eqn:B; cbn [rbind]; [|reflexivity].
  unfold from_samples. cbv zeta. change (fun a s => let* idx := mapM (fun p => let* x := dget_err KeyError (fst p) s in py_index x (snd p)) vv in Ok (aset a idx (aget a idx + 1)%Qc)) with (count_sample vv).
  destruct (yields f N acc) as [l|e] eqn:Y; cbn [rbind]; [rewrite (counted_ok _ _ _ _ _ _ Y); reflexivity|].
  assert (FU := free_unobserved b ev). unfold f in *. rewrite FU in *. clear f.
  set (f := step t full g b (unobserved b ev)) in *.
  assert (D : (full = false /\ unobserved b ev = []) \/ (full = true \/ unobserved b ev <> [])).
  { destruct full; [right; left; reflexivity|]. destruct (unobserved b ev); [left; auto|right; right; discriminate]. }
  destruct D as [[-> EU]|D].
  - assert (F : forall a, f a = Err IndexError) by (intros a; unfold f; rewrite EU; reflexivity).
    destruct N as [|N]; cbn [yields counted] in *; [discriminate|]. rewrite F in *. cbn [rbind] in *. congruence.
  - assert (F : forall a, started b ev (fst a) -> (f a = Err ValueError) \/ exists a', f a = Ok a' /\ started b ev (fst a')).
    { intros [st k] H. cbn [fst] in H. destruct (step_outcome b SN g RG ev t full st k D H) as [H1 H2].
      destruct (hit_dec b g ev full k) as [X|X]; [left; exact (H1 X)|]. right. destruct (H2 X) as (st' & E' & H'). eexists. split; [exact E'|exact H']. }
    assert (SA : started b ev (fst acc)).
    { assert (G : forall m a a', started b ev (fst a) -> burn f m a = Ok a' -> started b ev (fst a')).
      { induction m as [|m IH]; intros a a' H X; cbn [burn] in X; [injection X as <-; exact H|].
        destruct (F a H) as [Z|(a1 & Z & H1)]; rewrite Z in X; cbn [rbind] in X; [discriminate|]. exact (IH a1 a' H1 X). }
      exact (G burnIn init acc ST B). }
    assert (EV : e = ValueError).
    { clear B. revert acc SA Y. induction N as [|n IH]; intros acc SA Y; cbn [yields] in Y; [discriminate|].
      destruct (F acc SA) as [X|(a' & X & X')]; rewrite X in Y; cbn [rbind] in Y; [congruence|].
      destruct (yields f n a') as [l|e0] eqn:Y'; cbn [rbind] in Y; [discriminate|]. apply (IH a' X'). congruence. }
    subst e. rewrite (counted_err f vv (started b ev) N); [reflexivity| | |exact SA|exact Y].
    + intros a a' H E'. destruct (F a H) as [X|(a2 & X & X2)]; congruence.
    + intros a s e. apply count_value, K.
Qed.
End S.
