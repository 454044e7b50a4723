(** Which calls on decision networks raise, and which exception. *)
From Verif Require Import Base BaseFacts NDArray NDArrayFacts Factor Exact Spec Node Network NetSpec NetFacts NetInv NetOps NetOps2 NetRename NetTop NetView NetTable
  Decision DecSpec DecInv ErrSpec ErrProof ErrProof2.

(** Only utility nodes without parents still have a plain number as their table. *)
Definition plain_ok (n : node) : Prop := forall q, ncpd n = TNum q -> (nkind n = KUtility \/ nkind n = KBase) /\ nporder n = [].

Lemma plain_grow h n : (forall i m, nth_error h i = Some m -> plain_ok m) -> plain_ok n ->
  forall i m, nth_error (h ++ [n]) i = Some m -> plain_ok m.
Proof.
  intros H P i m E. destruct (Nat.lt_ge_cases i (length h)) as [L|L].
  - rewrite nth_error_app1 in E by exact L. exact (H i m E).
  - rewrite nth_error_app2 in E by exact L. destruct (i - length h) as [|k]; [injection E as <-; exact P|destruct k; discriminate].
Qed.

Lemma plain_set h j n : (forall i m, nth_error h i = Some m -> plain_ok m) -> plain_ok n ->
  forall i m, nth_error (list_set j n h) i = Some m -> plain_ok m.
Proof.
  intros H P i m E. rewrite nth_error_list_set in E. destruct (Nat.eq_dec i j) as [->|N]; [|exact (H i m E)].
  destruct (nth_error h j) as [x|] eqn:X; [injection E as <-; exact P|congruence].
Qed.

Lemma plain_new k name vs : plain_ok (new_node k name vs).
Proof. destruct k; intros q E; cbn in *; try discriminate; auto. Qed.

Lemma plain_put n s q n' : put n s q = Ok n' -> plain_ok n'.
Proof.
  unfold put. destruct (ncpd n) as [x|int a]; [discriminate|]. destruct (assign _ _ _); [|discriminate]. cbn. intros [= <-] y Y. discriminate.
Qed.

Lemma plain_store n int a n' : store_table n int a = Ok n' -> plain_ok n'.
Proof. unfold store_table. destruct (list_eq_dec _ _ _); [|discriminate]. intros [= <-] y Y. discriminate. Qed.

Lemma plain_on w i f : (forall j m, nth_error (dheap w) j = Some m -> plain_ok m) -> (forall n n', f n = Ok n' -> plain_ok n') ->
  forall j m, nth_error (dheap (fst (d_on_node w i f))) j = Some m -> plain_ok m.
Proof.
  intros H F. unfold d_on_node. destruct (nth_error (dheap w) i) as [n|]; [|exact H]. destruct (f n) as [n'|] eqn:E; [|exact H].
  cbn. apply plain_set; [exact H|exact (F n n' E)].
Qed.

Lemma edge_run w u v c p : dinv w -> dwithin w (DEdge u v) -> dget v (dlook w) = Some c -> dget u (dlook w) = Some p ->
  exists n2, (exists int a, ncpd n2 = TArr int a) /\ d_add_edge w u v = (mkDW (list_set c n2 (dheap w)) (dlook w), Ok tt).
Proof.
  intros I W Dv Du. unfold d_add_edge. rewrite Dv, Du.
  destruct (di_named w I v c Dv) as (n & Hn & Nn & Kn). destruct (di_named w I u p Du) as (m & Hm & Nm & Km).
  destruct (W c n p m (conj Dv Hn) (conj Du Hm)) as (NE & NP & KU).
  assert (KM : has_values m) by (unfold has_values; destruct (nkind m); tauto).
  unfold add_parent. rewrite Hn, Hm, Nm.
  set (n1 := with_parents n (dset u p (nparents n)) (nporder n ++ [u])).
  replace (match nkind n with KBase => (dheap w, Err AttributeError) | _ => refresh (dheap w) c n1 end) with (refresh (dheap w) c n1)
    by (destruct (nkind n); congruence).
  pose proof (di_ok w I c n Hn) as D.
  assert (PG : forall q, In q (nporder n1) -> exists o m', dget q (nparents n1) = Some o /\ nth_error (dheap w) o = Some m' /\ nname m' = q /\ has_values m').
  { intros q Iq. cbn [n1 nporder nparents with_parents] in *. rewrite dget_dset. apply in_app_or in Iq as [Iq|[<-|[]]].
    - destruct (String.eqb_spec q u) as [->|N]; [contradiction|]. apply (dk_parents _ _ D q Iq).
    - destruct (String.eqb_spec u u) as [_|X]; [|contradiction]. exists p, m. auto. }
  assert (RS : resolved (dheap w) (fun q => length (pvals (dheap w) n1 q)) n1).
  { intros q Iq. destruct (PG q Iq) as (o & m' & A & B & C & K). exists o, m'. split; [exact A|]. split; [exact B|]. split; [exact K|].
    unfold pvals, parent_values, dget_err, hget, values_attr. rewrite A. cbn. rewrite B. cbn. destruct K as [-> | ->]; reflexivity. }
  rewrite (refresh_ok _ (fun q => length (pvals (dheap w) n1 q)) c n1 n Hn eq_refl Kn RS). cbn [fst snd].
  eexists. split; [|reflexivity]. cbn. eauto.
Qed.

Lemma plain_reached w : dreached w -> forall i n, nth_error (dheap w) i = Some n -> plain_ok n.
Proof.
  induction 1 as [|w o R H W]; [intros [|i] n X; discriminate|]. assert (I := dreached_inv w R). destruct o; cbn [dexec].
  - cbn [fst dheap]. apply plain_grow; [exact H|apply plain_new].
  - unfold d_add_node. destruct (nth_error (dheap w) i); exact H.
  - destruct (dget v (dlook w)) as [c|] eqn:Dv; [destruct (dget u (dlook w)) as [p|] eqn:Du|].
    2,3: unfold d_add_edge; rewrite Dv; try rewrite Du; exact H.
    destruct (edge_run w u v c p I W Dv Du) as (n2 & (int & a & E) & ->). cbn [fst dheap]. apply plain_set; [exact H|]. intros q Q. congruence.
  - apply plain_on; [exact H|]. intros n n' E. unfold set_cpd in E. destruct (nkind n); try discriminate. exact (plain_store _ _ _ _ E).
  - apply plain_on; [exact H|]. intros n n' E. unfold set_probability in E. destruct (nkind n); try discriminate.
    destruct (own_index n x); [|discriminate]. cbn [rbind] in E. destruct (mapM _ _); [|discriminate]. exact (plain_put _ _ _ _ E).
  - apply plain_on; [exact H|]. intros n n' E. unfold set_utilities in E. destruct (nkind n); try discriminate. exact (plain_store _ _ _ _ E).
  - apply plain_on; [exact H|]. intros n n' E. unfold set_utility in E. destruct (nkind n); try discriminate.
    destruct (mapM _ _); [|discriminate]. exact (plain_put _ _ _ _ E).
  - unfold d_decide. destruct (nth_error (dheap w) i) as [n|] eqn:E; [|exact H]. cbn [fst dheap]. apply plain_set; [exact H|].
    assert (P := H i n E). unfold set_decision. destruct (nkind n) eqn:K; try exact P. destruct (ncpd n) as [q|int a] eqn:C.
    { destruct (P q C) as [[X|X] _]; congruence. }
    destruct (rbind _ _) as [n'|] eqn:Y; cbn [fst]; [|intros q Q; discriminate].
    destruct (own_index n d); [|discriminate]. exact (plain_put _ _ _ _ Y).
  - apply plain_on; [exact H|]. intros n n' E. unfold fully_mixed in E. destruct (nkind n); try discriminate.
    destruct (nvalues n); [discriminate|]. injection E as <-. intros q Q. discriminate.
Qed.

Lemma pvals_dp h n q : d_ok h n -> In q (nporder n) -> pvals h n q = dpvals h n q.
Proof.
  intros D Iq. destruct (dk_parents _ _ D q Iq) as (o & m & A & B & C & K).
  unfold pvals, dpvals, parent_values, dget_err, hget, values_attr. rewrite A. cbn. rewrite B. cbn. destruct K as [-> | ->]; reflexivity.
Qed.

Lemma axes_ok h n : d_ok h n -> nkind n <> KBase -> tshape (ncpd n) = axes h n.
Proof.
  intros D K. rewrite <- tarr_shape, (dk_shape _ _ D). unfold axes, own_dims. f_equal.
  - destruct (nkind n); congruence.
  - apply map_ext_in. intros q Iq. now rewrite (pvals_dp h n q D Iq).
Qed.

Lemma known_or h n pv : (forall q y, In q (nporder n) -> dget q pv = Some y -> In y (dpvals h n q)) \/ unknown_for h n pv.
Proof.
  unfold unknown_for. induction (nporder n) as [|q l IH]; [left; intros q y []|].
  destruct IH as [G|(q' & y & Iq & D & N)]; [|right; exists q', y; split; [now right|auto]].
  destruct (dget q pv) as [y|] eqn:D.
  - destruct (In_dec_s y (dpvals h n q)) as [Iy|NI]; [left|right; exists q, y; split; [now left|auto]].
    intros q' y' [<-|Iq] D'; [congruence|exact (G q' y' Iq D')].
  - left. intros q' y' [<-|Iq] D'; [congruence|exact (G q' y' Iq D')].
Qed.

Lemma put_fine n int a s q : ncpd n = TArr int a -> Forall2 sel_in s (shape a) -> exists n', put n s q = Ok n'.
Proof. intros C F. unfold put, assign. rewrite C, (sel_ok_in _ _ F). cbn [rbind]. eauto. Qed.

Section Sel.
Context (h : heap) (n : node) (D : d_ok h n).

Lemma PVD q : In q (nporder n) -> parent_values h n q = Ok (dpvals h n q).
Proof. intros Iq. rewrite (pvals_ok h n q D Iq). f_equal. exact (pvals_dp h n q D Iq). Qed.

Lemma dims_dp : map (fun q => length (pvals h n q)) (nporder n) = map (fun q => length (dpvals h n q)) (nporder n).
Proof. apply map_ext_in. intros q Iq. now rewrite (pvals_dp h n q D Iq). Qed.

Lemma dprob_cases x p pv : plain_ok n -> nkind n = KDiscrete ->
  (unknown_value n x \/ unknown_for h n pv) /\ set_probability h n x p pv = Err ValueError \/
  ~ (unknown_value n x \/ unknown_for h n pv) /\ exists n', set_probability h n x p pv = Ok n'.
Proof.
  intros P K. unfold set_probability. rewrite K. destruct (own_index_cases n x) as [[U ->]|[U (l & -> & SO)]]; [left; auto|]. cbn [rbind].
  destruct (known_or h n pv) as [G|X].
  - right. split; [intros [X|(q & y & Iq & Dq & N)]; [contradiction|exact (N (G q y Iq Dq))]|].
    rewrite (sels_ok h n (dpvals h n) PVD pv G). cbn [rbind]. destruct (ncpd n) as [q|int a] eqn:C; [destruct (P q C) as [[Y|Y] _]; congruence|].
    apply (put_fine n int a _ _ C). assert (S := dk_shape _ _ D). rewrite C, dims_dp in S. cbn [tarr] in S. rewrite S. apply Forall2_app.
    + unfold own_dims. rewrite K. destruct (nvalues n); exact SO.
    + apply (selectors_in n); [apply incl_refl|exact G].
  - left. split; [auto|]. destruct X as (q & y & Iq & Dq & N). rewrite (sels_unknown h n (dpvals h n) PVD pv q y Iq Dq N). reflexivity.
Qed.

Lemma dutil_cases u pv : plain_ok n -> nkind n = KUtility ->
  unknown_for h n pv /\ (forall q, ncpd n <> TNum q) /\ set_utility h n u pv = Err ValueError \/
  ~ unknown_for h n pv /\ (exists q, ncpd n = TNum q) /\ set_utility h n u pv = Err TypeError \/
  ~ unknown_for h n pv /\ (forall q, ncpd n <> TNum q) /\ exists n', set_utility h n u pv = Ok n'.
Proof.
  intros P K. unfold set_utility. rewrite K. destruct (known_or h n pv) as [G|X].
  - right. assert (NU : ~ unknown_for h n pv) by (intros (q & y & Iq & Dq & N); exact (N (G q y Iq Dq))).
    rewrite (sels_ok h n (dpvals h n) PVD pv G). cbn [rbind]. destruct (ncpd n) as [q|int a] eqn:C.
    + left. split; [exact NU|]. split; [eauto|]. unfold put. now rewrite C.
    + right. split; [exact NU|]. split; [discriminate|]. apply (put_fine n int a _ _ C).
      assert (S := dk_shape _ _ D). rewrite C, dims_dp in S. cbn [tarr] in S. rewrite S. unfold own_dims. rewrite K. cbn [app].
      apply (selectors_in n); [apply incl_refl|exact G].
  - left. split; [exact X|]. destruct X as (q & y & Iq & Dq & N). split.
    + intros z Z. destruct (P z Z) as [_ O]. rewrite O in Iq. destruct Iq.
    + rewrite (sels_unknown h n (dpvals h n) PVD pv q y Iq Dq N). reflexivity.
Qed.
End Sel.

Lemma sel_ok_pre s sh t : Forall2 sel_in s sh -> sel_ok (sh ++ t) s = true.
Proof.
  revert sh. induction s as [|x s IH]; intros sh F; [now destruct (sh ++ t)|]. inversion F as [|? d ? sh' H F' E1 E2]; subst. cbn [app].
  destruct x as [i|k]; cbn [sel_ok sel_in] in *; [|now apply IH]. apply andb_true_iff. split; [now apply Nat.ltb_lt|now apply IH].
Qed.

Lemma decide_cases h n d : d_ok h n -> plain_ok n -> nkind n = KDecision ->
  unknown_value n d /\ snd (set_decision n d) = Err ValueError \/ ~ unknown_value n d /\ snd (set_decision n d) = Ok tt.
Proof.
  intros D P K. unfold set_decision. rewrite K. destruct (own_index_cases n d) as [[U ->]|[U (l & -> & SO)]]; [left; auto|]. right. split; [exact U|].
  cbn [rbind]. destruct (ncpd n) as [q|int a] eqn:C; [destruct (P q C) as [[Y|Y] _]; congruence|]. unfold put. cbn [ncpd with_cpd]. unfold assign.
  cbn [shape amap]. assert (S := dk_shape _ _ D). rewrite C in S. cbn [tarr] in S. rewrite S. unfold own_dims. rewrite K.
  rewrite sel_ok_pre; [reflexivity|]. destruct (nvalues n); exact SO.
Qed.

Theorem dcalls_raise w o : dreached w -> dwithin w o -> (forall i, dobject_of o = Some i -> exists n, nth_error (dheap w) i = Some n) ->
  (forall e, snd (dexec w o) = Err e <-> draises w o e) /\
  (snd (dexec w o) <> Ok tt -> (forall i d, o <> DDecide i d) -> fst (dexec w o) = w).
Proof.
  intros R W OE. assert (I := dreached_inv w R). assert (PL := plain_reached w R).
  assert (FINE : forall w', (forall e, ~ draises w o e) -> dexec w o = (w', Ok tt) ->
    (forall e, snd (dexec w o) = Err e <-> draises w o e) /\ (snd (dexec w o) <> Ok tt -> (forall i d, o <> DDecide i d) -> fst (dexec w o) = w)).
  { intros w' N E. rewrite E. cbn. split; [|congruence]. intros e. split; [discriminate|]. intros X. destruct (N e X). }
  assert (FAIL : forall w' e0, draises w o e0 -> (forall e, draises w o e -> e = e0) -> dexec w o = (w', Err e0) -> ((forall i d, o <> DDecide i d) -> w' = w) ->
    (forall e, snd (dexec w o) = Err e <-> draises w o e) /\ (snd (dexec w o) <> Ok tt -> (forall i d, o <> DDecide i d) -> fst (dexec w o) = w)).
  { intros w' e0 X U E S. rewrite E. cbn. split; [|auto]. intros e. split; [intros [= <-]; exact X|]. intros X'. now rewrite (U e X'). }
  destruct o as [k nm vs|i|u v|i int a|i x p pv|i int a|i u pv|i d|i]; cbn [dwithin dobject_of] in *.
  - eapply FINE; [|reflexivity]. intros e X. inversion X.
  - destruct (OE i eq_refl) as (n & Hn). eapply FINE; [|cbn [dexec]; unfold d_add_node; rewrite Hn; reflexivity]. intros e X. inversion X.
  - destruct (dget v (dlook w)) as [c|] eqn:Dv; [destruct (dget u (dlook w)) as [p|] eqn:Du|].
    + destruct (edge_run w u v c p I W Dv Du) as (n2 & _ & E). eapply FINE; [|exact E]. intros e X. inversion X as [? ? N| | | | | | | | | | | | |]; subst.
      apply N. split; eapply dget_Some_key; eassumption.
    + eapply (FAIL w KeyError); [|intros e X; inversion X; reflexivity| |reflexivity].
      * constructor. intros [A _]. apply (proj1 (dget_None _ _) Du A).
      * cbn [dexec]. unfold d_add_edge. now rewrite Dv, Du.
    + eapply (FAIL w KeyError); [|intros e X; inversion X; reflexivity| |reflexivity].
      * constructor. intros [_ A]. apply (proj1 (dget_None _ _) Dv A).
      * cbn [dexec]. unfold d_add_edge. now rewrite Dv.
  - destruct (OE i eq_refl) as (n & Hn). assert (D := di_ok w I i n Hn).
    assert (SAME : forall m, nth_error (dheap w) i = Some m -> m = n) by (intros; congruence).
    assert (X : dexec w (DCpd i int a) = match set_cpd n int a with Ok n' => (mkDW (list_set i n' (dheap w)) (dlook w), Ok tt) | Err e => (w, Err e) end)
      by (cbn [dexec]; unfold d_on_node; now rewrite Hn).
    unfold set_cpd in X. destruct (nkind n) eqn:K.
    1,3,4: apply (FAIL w NotImplementedError); [apply (D_cpd_class w i n); congruence| |exact X|reflexivity];
      intros e Y; inversion Y; subst; [reflexivity|]; match goal with H : nth_error _ _ = Some _ |- _ => apply SAME in H; congruence end.
    unfold store_table in X. rewrite (axes_ok _ _ D) in X by congruence. destruct (list_eq_dec _ _ _) as [E|N].
    + eapply FINE; [|exact X]. intros e Y. inversion Y; subst;
        match goal with H : nth_error _ _ = Some _ |- _ => apply SAME in H end; congruence.
    + apply (FAIL w ValueError); [apply (D_cpd w i n); congruence| |exact X|reflexivity].
      intros e Y. inversion Y; subst; [|reflexivity]. match goal with H : nth_error _ _ = Some _ |- _ => apply SAME in H end; congruence.
  - destruct (OE i eq_refl) as (n & Hn). assert (D := di_ok w I i n Hn).
    assert (SAME : forall m, nth_error (dheap w) i = Some m -> m = n) by (intros; congruence).
    assert (X : dexec w (DProb i x p pv) = match set_probability (dheap w) n x p pv with Ok n' => (mkDW (list_set i n' (dheap w)) (dlook w), Ok tt) | Err e => (w, Err e) end)
      by (cbn [dexec]; unfold d_on_node; now rewrite Hn).
    destruct (nkind n) eqn:K.
    1,3,4: unfold set_probability in X; rewrite K in X; apply (FAIL w AttributeError); [apply (D_prob_class w i n); congruence| |exact X|reflexivity];
      intros e Y; inversion Y; subst; [reflexivity|]; match goal with H : nth_error _ _ = Some _ |- _ => apply SAME in H; congruence end.
    destruct (dprob_cases _ n D x p pv (PL i n Hn) K) as [[U E]|[U (n' & E)]]; rewrite E in X.
    + apply (FAIL w ValueError); [apply (D_prob w i n); auto| |exact X|reflexivity].
      intros e Y. inversion Y; subst; [|reflexivity]. match goal with H : nth_error _ _ = Some _ |- _ => apply SAME in H end; congruence.
    + eapply FINE; [|exact X]. intros e Y. inversion Y; subst;
        match goal with H : nth_error _ _ = Some _ |- _ => apply SAME in H; subst end; [congruence|contradiction].
  - destruct (OE i eq_refl) as (n & Hn). assert (D := di_ok w I i n Hn).
    assert (SAME : forall m, nth_error (dheap w) i = Some m -> m = n) by (intros; congruence).
    assert (X : dexec w (DUtilities i int a) = match set_utilities n int a with Ok n' => (mkDW (list_set i n' (dheap w)) (dlook w), Ok tt) | Err e => (w, Err e) end)
      by (cbn [dexec]; unfold d_on_node; now rewrite Hn).
    unfold set_utilities in X. destruct (nkind n) eqn:K.
    1,2,4: apply (FAIL w AttributeError); [apply (D_utils_class w i n); congruence| |exact X|reflexivity];
      intros e Y; inversion Y; subst; [reflexivity|]; match goal with H : nth_error _ _ = Some _ |- _ => apply SAME in H; congruence end.
    unfold store_table in X. rewrite (axes_ok _ _ D) in X by congruence. destruct (list_eq_dec _ _ _) as [E|N].
    + eapply FINE; [|exact X]. intros e Y. inversion Y; subst;
        match goal with H : nth_error _ _ = Some _ |- _ => apply SAME in H end; congruence.
    + apply (FAIL w ValueError); [apply (D_utils w i n); congruence| |exact X|reflexivity].
      intros e Y. inversion Y; subst; [|reflexivity]. match goal with H : nth_error _ _ = Some _ |- _ => apply SAME in H end; congruence.
  - destruct (OE i eq_refl) as (n & Hn). assert (D := di_ok w I i n Hn).
    assert (SAME : forall m, nth_error (dheap w) i = Some m -> m = n) by (intros; congruence).
    assert (X : dexec w (DUtility i u pv) = match set_utility (dheap w) n u pv with Ok n' => (mkDW (list_set i n' (dheap w)) (dlook w), Ok tt) | Err e => (w, Err e) end)
      by (cbn [dexec]; unfold d_on_node; now rewrite Hn).
    destruct (nkind n) eqn:K.
    1,2,4: unfold set_utility in X; rewrite K in X; apply (FAIL w AttributeError); [apply (D_util_class w i n); congruence| |exact X|reflexivity];
      intros e Y; inversion Y; subst; [reflexivity| |]; match goal with H : nth_error _ _ = Some _ |- _ => apply SAME in H; congruence end.
    destruct (dutil_cases _ n D u pv (PL i n Hn) K) as [(U & T & E)|[(U & (q & T) & E)|(U & T & n' & E)]]; rewrite E in X.
    + apply (FAIL w ValueError); [apply (D_util w i n); auto| |exact X|reflexivity].
      intros e Y. inversion Y as [| | | | | | |? ? ? ? H' ?|? ? ? ? H' ?|? ? q ? ? H' ? T'| | | |]; subst; [|reflexivity|]; apply SAME in H'; subst; [congruence|destruct (T q T')].
    + apply (FAIL w TypeError); [apply (D_util_fresh w i n q); auto| |exact X|reflexivity].
      intros e Y. inversion Y as [| | | | | | |? ? ? ? H' ?|? ? ? ? H' ?|? ? q' ? ? H' ? T'| | | |]; subst; [| |reflexivity]; apply SAME in H'; subst; [congruence|contradiction].
    + eapply FINE; [|exact X]. intros e Y.
      inversion Y as [| | | | | | |? ? ? ? H' ?|? ? ? ? H' ?|? ? q' ? ? H' ? T'| | | |]; subst; apply SAME in H'; subst; [congruence|contradiction|destruct (T q' T')].
  - destruct (OE i eq_refl) as (n & Hn). assert (D := di_ok w I i n Hn).
    assert (SAME : forall m, nth_error (dheap w) i = Some m -> m = n) by (intros; congruence).
    assert (X : dexec w (DDecide i d) = (mkDW (list_set i (fst (set_decision n d)) (dheap w)) (dlook w), snd (set_decision n d)))
      by (cbn [dexec]; unfold d_decide; now rewrite Hn).
    destruct (nkind n) eqn:K.
    1-3: assert (X' : snd (set_decision n d) = Err AttributeError) by (unfold set_decision; now rewrite K); rewrite X' in X;
      eapply FAIL; [apply (D_decide_class w i n); congruence| |exact X|intros N; destruct (N i d eq_refl)];
      intros e Y; inversion Y; subst; [reflexivity|]; match goal with H : nth_error _ _ = Some _ |- _ => apply SAME in H; congruence end.
    destruct (decide_cases _ n d D (PL i n Hn) K) as [[U E]|[U E]]; rewrite E in X.
    + eapply FAIL; [apply (D_decide w i n); auto| |exact X|intros N; destruct (N i d eq_refl)].
      intros e Y. inversion Y; subst; [|reflexivity]. match goal with H : nth_error _ _ = Some _ |- _ => apply SAME in H end; congruence.
    + eapply FINE; [|exact X]. intros e Y. inversion Y; subst;
        match goal with H : nth_error _ _ = Some _ |- _ => apply SAME in H; subst end; [congruence|contradiction].
  - destruct (OE i eq_refl) as (n & Hn).
    assert (SAME : forall m, nth_error (dheap w) i = Some m -> m = n) by (intros; congruence).
    assert (X : dexec w (DMixed i) = match fully_mixed n with Ok n' => (mkDW (list_set i n' (dheap w)) (dlook w), Ok tt) | Err e => (w, Err e) end)
      by (cbn [dexec]; unfold d_on_node; now rewrite Hn).
    unfold fully_mixed in X. destruct (nkind n) eqn:K.
    1-3: apply (FAIL w AttributeError); [apply (D_mixed_class w i n); congruence| |exact X|reflexivity];
      intros e Y; inversion Y; subst; [reflexivity|]; match goal with H : nth_error _ _ = Some _ |- _ => apply SAME in H; congruence end.
    destruct (nvalues n) as [|y l] eqn:V.
    + apply (FAIL w NonFinite); [apply (D_mixed w i n); auto| |exact X|reflexivity].
      intros e Y. inversion Y; subst; [|reflexivity]. match goal with H : nth_error _ _ = Some _ |- _ => apply SAME in H end; congruence.
    + eapply FINE; [|exact X]. intros e Y. inversion Y; subst;
        match goal with H : nth_error _ _ = Some _ |- _ => apply SAME in H; subst end; congruence.
Qed.

Lemma reads_raise w v i n x pv st : reached w -> holds w v i n ->
  (forall e, get_probability (whp w) n x pv = Err e <-> e = ValueError /\ (unknown_value n x \/ unknown_pick w n pv)) /\
  ((exists e, single_probability (whp w) n x st = Err e) <-> unknown_value n x \/ wrong (vals_of w) n st \/ missing n st) /\
  (forall e, single_probability (whp w) n x st = Err e ->
     e = ValueError /\ (unknown_value n x \/ wrong (vals_of w) n st) \/ e = KeyError /\ missing n st /\ ~ unknown_value n x).
Proof.
  intros R H. assert (I := reached_inv w R). destruct (iv_f w I v i n H) as [K _].
  assert (PV := fun q Iq => parent_values_vals w v i n q I H Iq).
  assert (SH : shape (tarr (ncpd n)) = own_dims n ++ map (fun q => length (vals_of w q)) (nporder n)).
  { rewrite (own_shape' w v i n I H). f_equal. unfold own_dims. rewrite K. destruct (nvalues n); reflexivity. }
  split; [|split].
  - intros e. destruct (get_prob_cases (whp w) n (vals_of w) PV SH x pv K) as [[U ->]|[U (a & ->)]].
    + split; [intros [= <-]; auto|intros [-> _]; reflexivity].
    + split; [discriminate|]. intros [_ X]. destruct (U X).
  - destruct (single_cases (whp w) n (vals_of w) PV SH x st K) as [(e & -> & C)|[U (q & ->)]].
    + split; [intros _|eauto]. tauto.
    + split; [intros (e & X); discriminate|]. intros X. destruct (U X).
  - intros e E. destruct (single_cases (whp w) n (vals_of w) PV SH x st K) as [(e' & E' & C)|[U (q & E')]]; [|congruence].
    assert (e' = e) by congruence. subst. exact C.
Qed.

Lemma utility_raises w i n st : dreached w -> nth_error (dheap w) i = Some n -> nkind n = KUtility ->
  ((exists e, get_utility (dheap w) n st = Err e) <-> wrong (dpvals (dheap w) n) n st \/ missing n st \/ exists q, ncpd n = TNum q) /\
  (forall e, get_utility (dheap w) n st = Err e ->
     e = ValueError /\ wrong (dpvals (dheap w) n) n st \/ e = KeyError /\ missing n st \/ e = TypeError /\ exists q, ncpd n = TNum q).
Proof.
  intros R H K. assert (D := di_ok w (dreached_inv w R) i n H).
  assert (SH := dk_shape _ _ D). rewrite (dims_dp _ n D) in SH.
  destruct (utility_cases (dheap w) n (dpvals (dheap w) n) (PVD _ n D) SH st K) as [(e & E & C)|(U & (int & a & T) & q & E)]; rewrite E; split.
  - split; [intros _; tauto|eauto].
  - intros e' [= <-]. tauto.
  - split; [intros (e & X); discriminate|]. intros [X|[X|(y & Y)]]; [tauto|tauto|congruence].
  - intros e X. discriminate.
Qed.

Lemma wrong_class h n int a x q pv pk d :
  (nkind n <> KDiscrete -> set_cpd n int a = Err NotImplementedError /\ set_probability h n x q pv = Err AttributeError /\
     get_probability h n x pk = Err AttributeError /\ single_probability h n x pv = Err AttributeError /\
     (forall c p, nth_error h c = Some n -> remove_parent h c p = (h, Err AttributeError)) /\
     (forall c vs, nth_error h c = Some n -> set_values h c vs = (h, Err AttributeError))) /\
  (nkind n <> KUtility -> set_utilities n int a = Err AttributeError /\ set_utility h n q pv = Err AttributeError /\ get_utility h n pv = Err AttributeError) /\
  (nkind n <> KDecision -> set_decision n d = (n, Err AttributeError) /\ fully_mixed n = Err AttributeError).
Proof.
  unfold set_cpd, set_probability, get_probability, single_probability, set_utilities, set_utility, get_utility, set_decision, fully_mixed, remove_parent, set_values.
  destruct (nkind n) eqn:K; repeat split; try congruence; intros c p E; rewrite E, K; try (destruct (nth_error h p)); reflexivity.
Qed.
