(** Decision networks built through the API are sound. *)
From Verif Require Import Base BaseFacts NDArray NDArrayFacts Factor FactorFacts Exact Spec Node Network NetSpec NetFacts NetInv NetView NetTable
  Decision DecSpec.

(** Values shown for parent [q]. *)
Definition pvals (h : heap) (n : node) (q : string) : list string :=
  match parent_values h n q with Ok vs => vs | Err _ => [] end.

Definition has_values (m : node) : Prop := nkind m = KDiscrete \/ nkind m = KDecision.

Record d_ok (h : heap) (n : node) : Prop := {
  dk_names : NoDup (nname n :: nporder n);
  dk_keys : dkeys (nparents n) = nporder n;
  dk_parents : forall q, In q (nporder n) -> exists o m, dget q (nparents n) = Some o /\ nth_error h o = Some m /\ nname m = q /\ has_values m;
  dk_arr : real_array (tarr (ncpd n));
  dk_shape : shape (tarr (ncpd n)) = own_dims n ++ map (fun q => length (pvals h n q)) (nporder n)
}.

Record dinv (w : dworld) : Prop := {
  di_ok : forall i n, nth_error (dheap w) i = Some n -> d_ok (dheap w) n;
  di_nodup : NoDup (dkeys (dlook w));
  di_named : forall v i, dget v (dlook w) = Some i -> exists n, nth_error (dheap w) i = Some n /\ nname n = v /\ nkind n <> KBase;
  di_same : forall v i n q, dholds w v i n -> In q (nporder n) -> dget q (nparents n) = dget q (dlook w)
}.

Lemma pvals_similar h h' n q : similar h h' -> pvals h n q = pvals h' n q.
Proof.
  intros S. unfold pvals, parent_values, dget_err, hget, values_attr. destruct (dget q (nparents n)) as [o|]; cbn; [|reflexivity].
  specialize (S o). destruct (nth_error h o) as [m|], (nth_error h' o) as [m'|]; cbn in S; try discriminate; [|reflexivity].
  cbn. unfold face in S. injection S as E1 E2 E3. rewrite E1, E3. reflexivity.
Qed.

Lemma d_ok_similar h h' n : similar h h' -> d_ok h n -> d_ok h' n.
Proof.
  intros S D. constructor; try apply D.
  - intros q Iq. destruct (dk_parents _ _ D q Iq) as (o & m & A & B & C & K).
    destruct (similar_get _ _ _ _ S B) as (m' & B' & F). unfold face in F. injection F as F1 F2 F3.
    exists o, m'. unfold has_values. rewrite F1, F2. auto.
  - rewrite (dk_shape _ _ D). f_equal. apply map_ext. intros q. rewrite (pvals_similar _ _ _ _ S). reflexivity.
Qed.

Lemma pvals_ok h n q : d_ok h n -> In q (nporder n) -> parent_values h n q = Ok (pvals h n q).
Proof.
  intros D Iq. destruct (dk_parents _ _ D q Iq) as (o & m & A & B & C & K).
  unfold pvals, parent_values, dget_err, hget, values_attr. rewrite A. cbn. rewrite B. cbn. destruct K as [-> | ->]; reflexivity.
Qed.

Lemma tarr_shape t : shape (tarr t) = tshape t.
Proof. destruct t; reflexivity. Qed.

(** Growing the heap. *)
Lemma pvals_grow h n q x : d_ok h n -> In q (nporder n) -> pvals (h ++ [x]) n q = pvals h n q.
Proof.
  intros D Iq. destruct (dk_parents _ _ D q Iq) as (o & m & A & B & C & K).
  unfold pvals, parent_values, dget_err, hget, values_attr. rewrite A. cbn. rewrite B.
  rewrite nth_error_app1 by (apply nth_error_Some; congruence). rewrite B. reflexivity.
Qed.

Lemma d_ok_grow h n x : d_ok h n -> d_ok (h ++ [x]) n.
Proof.
  intros D. constructor; try apply D.
  - intros q Iq. destruct (dk_parents _ _ D q Iq) as (o & m & A & B & C). exists o, m.
    rewrite nth_error_app1 by (apply nth_error_Some; congruence). auto.
  - rewrite (dk_shape _ _ D). f_equal. apply map_ext_in. intros q Iq. rewrite pvals_grow by assumption. reflexivity.
Qed.

Lemma d_ok_new h k name values : d_ok h (new_node k name values).
Proof.
  assert (N : NoDup [name]) by (constructor; [intros []|constructor]).
  destruct k; cbn; constructor; cbn; try exact N; try reflexivity; try (intros q []); try apply real_full;
    rewrite app_nil_r; destruct values; reflexivity.
Qed.

(** Replacing an object by one with the same face and parents. *)
Lemma inv_set w i n n' : dinv w -> nth_error (dheap w) i = Some n -> face n' = face n ->
  nparents n' = nparents n -> nporder n' = nporder n -> real_array (tarr (ncpd n')) -> tshape (ncpd n') = tshape (ncpd n) ->
  dinv (mkDW (list_set i n' (dheap w)) (dlook w)).
Proof.
  intros I H F E1 E2 RA SH. assert (S := similar_set _ _ _ _ H F). unfold face in F. injection F as F1 F2 F3.
  assert (D : d_ok (dheap w) n') .
  { pose proof (di_ok w I i n H) as D. constructor.
    - rewrite F2, E2. apply D.
    - rewrite E1, E2. apply D.
    - rewrite E1, E2. apply D.
    - exact RA.
    - rewrite tarr_shape, SH, <- tarr_shape, (dk_shape _ _ D), E2. unfold own_dims. rewrite F1, F3. f_equal.
      apply map_ext. intros q. unfold pvals, parent_values. rewrite E1. reflexivity. }
  assert (G : forall j m, nth_error (list_set i n' (dheap w)) j = Some m -> (j = i /\ m = n') \/ (j <> i /\ nth_error (dheap w) j = Some m)).
  { intros j m X. rewrite nth_error_list_set in X. destruct (Nat.eq_dec j i) as [->|N]; [|right; auto].
    rewrite H in X. injection X as <-. left; auto. }
  constructor; cbn [dheap dlook].
  - intros j m X. apply (d_ok_similar _ _ _ S). destruct (G j m X) as [[-> ->]|[_ Y]]; [exact D|apply (di_ok w I j m Y)].
  - apply I.
  - intros v j X. destruct (di_named w I v j X) as (m & A & B & C). rewrite nth_error_list_set.
    destruct (Nat.eq_dec j i) as [->|N]; [|exists m; auto]. rewrite H. exists n'. split; [reflexivity|].
    assert (m = n) by congruence. subst m. rewrite F1, F2. auto.
  - intros v j m q [X Y] Iq. cbn [dheap dlook] in *. destruct (G j m Y) as [[-> ->]|[_ Z]].
    + rewrite E1. rewrite E2 in Iq. apply (di_same w I v i n q); [split; assumption|exact Iq].
    + apply (di_same w I v j m q); [split; assumption|exact Iq].
Qed.

Lemma inv_on_node w i f : dinv w ->
  (forall n n', nth_error (dheap w) i = Some n -> f n = Ok n' -> exists t v, n' = with_cpd n t v /\ real_array (tarr t) /\ tshape t = tshape (ncpd n)) ->
  dinv (fst (d_on_node w i f)).
Proof.
  intros I P. unfold d_on_node. destruct (nth_error (dheap w) i) as [n|] eqn:H; [|exact I].
  destruct (f n) as [n'|e] eqn:E; [|exact I]. destruct (P n n' eq_refl E) as (t & v & -> & RA & SH).
  apply (inv_set w i n); auto.
Qed.

Lemma put_ok n s q n' : put n s q = Ok n' -> exists t v, n' = with_cpd n t v /\ real_array (tarr t) /\ tshape t = tshape (ncpd n).
Proof.
  unfold put. destruct (ncpd n) as [x|int a] eqn:E; [discriminate|]. destruct (assign a s (cast int q)) as [b|] eqn:A; [|discriminate].
  cbn. intros [= <-]. destruct (assign_shape _ _ _ _ A) as [S R]. exists (TArr int b), (nvalid n). auto.
Qed.

Lemma store_ok n int a n' : real_array a -> store_table n int a = Ok n' ->
  exists t v, n' = with_cpd n t v /\ real_array (tarr t) /\ tshape t = tshape (ncpd n).
Proof.
  intros R. unfold store_table. destruct (list_eq_dec _ _ _) as [E|]; [|discriminate]. intros [= <-].
  exists (TArr int a), true. auto.
Qed.

Lemma real_amap f a : real_array a -> real_array (amap f a).
Proof. unfold real_array. cbn. rewrite map_length. auto. Qed.

Lemma decision_table n d : real_array (tarr (ncpd n)) -> exists t, fst (set_decision n d) = with_cpd n t (nvalid n) /\
  real_array (tarr t) /\ tshape t = tshape (ncpd n).
Proof.
  intros R. assert (Z : exists t, (match ncpd n with
                | TArr int a => with_cpd n (TArr int (amap (fun _ => 0%Qc) a)) (nvalid n)
                | TNum _ => with_cpd n (TNum 0%Qc) (nvalid n) end) = with_cpd n t (nvalid n) /\ real_array (tarr t) /\ tshape t = tshape (ncpd n)).
  { destruct (ncpd n) as [x|int a]; eexists; (split; [reflexivity|]); cbn; auto. split; [apply real_amap; exact R|reflexivity]. }
  unfold set_decision. destruct (nkind n).
  1-3: exists (ncpd n); split; [destruct n; reflexivity|split; [exact R|reflexivity]].
  destruct Z as (t & -> & RA & SH). destruct (own_index n d) as [ix|e]; cbn [rbind].
  2: { exists t. auto. }
  destruct (put (with_cpd n t (nvalid n)) (map Fix ix) 1%Qc) as [n'|e] eqn:E.
  2: { exists t. auto. }
  unfold put in E. cbn [ncpd with_cpd] in E. destruct t as [x|int a]; [discriminate|].
  destruct (assign a (map Fix ix) (cast int 1%Qc)) as [b|] eqn:A; [|discriminate]. cbn in E. injection E as <-.
  destruct (assign_shape _ _ _ _ A) as [S R']. exists (TArr int b). cbn in *. split; [reflexivity|]. split; [exact R'|]. congruence.
Qed.

Lemma inv_decide w i d : dinv w -> dinv (fst (d_decide w i d)).
Proof.
  intros I. unfold d_decide. destruct (nth_error (dheap w) i) as [n|] eqn:H; [|exact I]. cbn [fst].
  destruct (decision_table n d (dk_arr _ _ (di_ok w I i n H))) as (t & -> & RA & SH). apply (inv_set w i n); auto.
Qed.

Lemma inv_mixed w i : dinv w -> dinv (fst (d_on_node w i fully_mixed)).
Proof.
  intros I. apply inv_on_node; [exact I|]. intros n n' H E. unfold fully_mixed in E.
  destruct (nkind n); try discriminate. destruct (nvalues n); [discriminate|]. injection E as <-.
  eexists _. exists (nvalid n). split; [reflexivity|]. split; [apply real_full|reflexivity].
Qed.

Lemma dset_same {A} v (i : A) d : dget v d = Some i -> dset v i d = d.
Proof.
  induction d as [|(k & x) d IH]; cbn; [discriminate|]. destruct (String.eqb_spec v k) as [->|N]; [intros [= ->]; reflexivity|].
  intros H. rewrite IH by exact H. reflexivity.
Qed.

Lemma dset_fresh {A} v (i : A) d : ~ In v (dkeys d) -> dset v i d = d ++ [(v, i)].
Proof.
  induction d as [|(k & x) d IH]; cbn; intros N; [reflexivity|]. destruct (String.eqb_spec v k) as [->|_]; [tauto|].
  rewrite IH by tauto. reflexivity.
Qed.

Lemma own_dims_reset n t v : own_dims (with_cpd n t v) = own_dims n. Proof. reflexivity. Qed.

Lemma inv_edge w u v : dinv w -> dwithin w (DEdge u v) -> dinv (fst (d_add_edge w u v)).
Proof.
  intros I W. unfold d_add_edge. destruct (dget v (dlook w)) as [c|] eqn:Dv; [|exact I].
  destruct (dget u (dlook w)) as [p|] eqn:Du; [|exact I]. cbn [fst].
  destruct (di_named w I v c Dv) as (n & Hn & Nn & Kn). destruct (di_named w I u p Du) as (m & Hm & Nm & Km).
  destruct (W c n p m (conj Dv Hn) (conj Du Hm)) as (NE & NP & KU).
  assert (KM : has_values m) by (unfold has_values; destruct (nkind m); tauto).
  unfold add_parent. rewrite Hn, Hm, Nm.
  set (n1 := with_parents n (dset u p (nparents n)) (nporder n ++ [u])).
  replace (match nkind n with KBase => (dheap w, Err AttributeError) | _ => refresh (dheap w) c n1 end) with (refresh (dheap w) c n1)
    by (destruct (nkind n); congruence).
  pose proof (di_ok w I c n Hn) as D.
  assert (Fresh : ~ In u (dkeys (nparents n))) by (rewrite (dk_keys _ _ D); exact NP).
  assert (PG : forall q, In q (nporder n1) -> exists o m', dget q (nparents n1) = Some o /\ nth_error (dheap w) o = Some m' /\ nname m' = q /\ has_values m').
  { intros q Iq. cbn [n1 nporder nparents with_parents] in *. rewrite dget_dset. apply in_app_or in Iq as [Iq|[<-|[]]].
    - destruct (String.eqb_spec q u) as [->|N]; [contradiction|]. apply (dk_parents _ _ D q Iq).
    - destruct (String.eqb_spec u u) as [_|X]; [|contradiction]. exists p, m. auto. }
  assert (RS : resolved (dheap w) (fun q => length (pvals (dheap w) n1 q)) n1).
  { intros q Iq. destruct (PG q Iq) as (o & m' & A & B & C & K). exists o, m'. split; [exact A|]. split; [exact B|]. split; [exact K|].
    unfold pvals, parent_values, dget_err, hget, values_attr. rewrite A. cbn. rewrite B. cbn. destruct K as [-> | ->]; reflexivity. }
  rewrite (refresh_ok _ (fun q => length (pvals (dheap w) n1 q)) c n1 n Hn eq_refl Kn RS). cbn [fst].
  set (n2 := reset n1 (own_dims n1 ++ map (fun q => length (pvals (dheap w) n1 q)) (nporder n1))).
  assert (S := similar_set _ _ _ n2 Hn eq_refl).
  assert (D2 : d_ok (dheap w) n2).
  { constructor.
    - cbn [n2 n1 nname nporder reset with_cpd with_parents]. change (nname n :: nporder n ++ [u]) with ((nname n :: nporder n) ++ [u]).
      apply NoDup_app_disj; [apply D|constructor; [intros []|constructor]|]. intros x X [<-|[]]. destruct X as [X|X]; [congruence|contradiction].
    - cbn [n2 n1 nparents nporder reset with_cpd with_parents]. rewrite dset_fresh by exact Fresh. unfold dkeys. rewrite map_app. cbn.
      f_equal. apply (dk_keys _ _ D).
    - intros q Iq. destruct (PG q Iq) as (o & m' & X). exists o, m'. exact X.
    - apply real_full.
    - reflexivity. }
  assert (G : forall j x, nth_error (list_set c n2 (dheap w)) j = Some x -> (j = c /\ x = n2) \/ (j <> c /\ nth_error (dheap w) j = Some x)).
  { intros j x X. rewrite nth_error_list_set in X. destruct (Nat.eq_dec j c) as [->|N]; [|right; auto].
    rewrite Hn in X. injection X as <-. left; auto. }
  constructor; cbn [dheap dlook].
  - intros j x X. apply (d_ok_similar _ _ _ S). destruct (G j x X) as [[-> ->]|[_ Y]]; [exact D2|apply (di_ok w I j x Y)].
  - apply I.
  - intros y j X. destruct (di_named w I y j X) as (x & A & B & C). rewrite nth_error_list_set.
    destruct (Nat.eq_dec j c) as [->|N]; [|exists x; auto]. rewrite Hn. exists n2. split; [reflexivity|].
    assert (x = n) by congruence. subst x. auto.
  - intros y j x q [X Y] Iq. cbn [dheap dlook] in *. destruct (G j x Y) as [[-> ->]|[_ Z]].
    + cbn [n2 n1 nparents nporder reset with_cpd with_parents] in *. rewrite dget_dset. apply in_app_or in Iq as [Iq|[<-|[]]].
      * destruct (String.eqb_spec q u) as [->|N]; [contradiction|]. apply (di_same w I y c n q); [split; assumption|exact Iq].
      * destruct (String.eqb_spec u u) as [_|X']; [|contradiction]. symmetry; exact Du.
    + apply (di_same w I y j x q); [split; assumption|exact Iq].
Qed.

Theorem dreached_inv w : dreached w -> dinv w.
Proof.
  induction 1 as [|w o R I W].
  - constructor.
    + intros [|i] n H; discriminate.
    + constructor.
    + intros v i H; discriminate.
    + intros v i n q [H _]; discriminate.
  - destruct o; cbn [dexec].
    + cbn [fst]. constructor; cbn [dheap dlook].
      * intros i n H. destruct (Nat.lt_ge_cases i (length (dheap w))) as [L|L].
        -- rewrite nth_error_app1 in H by exact L. apply d_ok_grow, (di_ok w I i n H).
        -- rewrite nth_error_app2 in H by exact L. destruct (i - length (dheap w)); [|destruct n0; discriminate]. injection H as <-. apply d_ok_new.
      * apply I.
      * intros v i D. destruct (di_named w I v i D) as (n & A & B). exists n. rewrite nth_error_app1 by (apply nth_error_Some; congruence). auto.
      * intros v i n q [D H] Iq. cbn [dheap dlook] in *. destruct (di_named w I v i D) as (m & A & B).
        rewrite nth_error_app1 in H by (apply nth_error_Some; congruence). apply (di_same w I v i n q); [split; assumption|exact Iq].
    + unfold d_add_node. destruct (nth_error (dheap w) i) as [n|] eqn:H; [|exact I]. cbn [fst].
      destruct (W n H) as [K [S|[F NP]]]; [rewrite (dset_same _ _ _ S); destruct w; exact I|].
      constructor; cbn [dheap dlook].
      * apply I.
      * apply dset_NoDup, I.
      * intros v j D. rewrite dget_dset in D. destruct (String.eqb_spec v (nname n)) as [->|N]; [|apply (di_named w I v j D)].
        injection D as <-. exists n. auto.
      * intros v j m q [D H'] Iq. cbn [dheap dlook] in *. rewrite dget_dset in *.
        destruct (String.eqb_spec v (nname n)) as [->|N].
        -- injection D as <-. assert (m = n) by congruence. subst m. rewrite NP in Iq. destruct Iq.
        -- pose proof (di_same w I v j m q (conj D H') Iq) as E. destruct (String.eqb_spec q (nname n)) as [->|]; [|exact E].
           exfalso. apply F. destruct (dk_parents _ _ (di_ok w I j m H') _ Iq) as (o & x & A & _).
           eapply dget_Some_key. rewrite <- E. exact A.
    + apply inv_edge; assumption.
    + apply inv_on_node; [exact I|]. intros n n' H E. unfold set_cpd in E. destruct (nkind n); try discriminate. eapply store_ok; eauto.
    + apply inv_on_node; [exact I|]. intros n n' H E. unfold set_probability in E. destruct (nkind n); try discriminate.
      destruct (own_index n x); [|discriminate]. cbn [rbind] in E. destruct (mapM _ _); [|discriminate]. eapply put_ok; eauto.
    + apply inv_on_node; [exact I|]. intros n n' H E. unfold set_utilities in E. destruct (nkind n); try discriminate. eapply store_ok; eauto.
    + apply inv_on_node; [exact I|]. intros n n' H E. unfold set_utility in E. destruct (nkind n); try discriminate.
      destruct (mapM _ _); [|discriminate]. eapply put_ok; eauto.
    + apply inv_decide, I.
    + apply inv_mixed, I.
Qed.

Lemma dreached_run w os : dreached w -> dall_within w os -> dreached (drun w os).
Proof. revert w; induction os as [|o os IH]; intros w R W; [exact R|]. cbn. apply IH; [constructor; [exact R|apply W]|apply W]. Qed.
