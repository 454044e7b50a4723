(** Which queries raise, and which exception. *)
From Verif Require Import Base BaseFacts NDArray NDArrayFacts Factor FactorFacts Exact Spec SpecFacts VEProof VEProof2 Order OrderSpec OrderProof
  HuginPure RoundedProof Node Network NetSpec NetView ErrSpec.

Section Q.
Context {SO : SetOrder} (b : bn) (WB : wf_bn b) (NN : nonneg_bn b).

Definition improperb (v : string) (e : evid) : bool :=
  match e with Hard x => negb (mem x (values_of b v)) | Soft q => negb (Nat.eqb (length q) (length (values_of b v))) end.

Lemma improperb_ok v e : improperb v e = true <-> improper b v e.
Proof.
  destruct e as [x|q]; cbn [improperb improper]; rewrite negb_true_iff, <- not_true_iff_false; [rewrite mem_In|rewrite Nat.eqb_eq]; reflexivity.
Qed.

Lemma proper_ok ev : NoDup (dkeys ev) -> weights_ok ev -> (forall v e, In (v, e) ev -> In v (bnames b) -> ~ improper b v e) -> ev_ok b ev.
Proof.
  intros ND W H. split; [exact ND|]. intros v e I J. specialize (H v e I J). destruct e as [x|q]; cbn [improper] in H.
  - destruct (In_dec_s x (values_of b v)); tauto.
  - split; [|exact (W v q I)]. destruct (Nat.eq_dec (length q) (length (values_of b v))); tauto.
Qed.

Lemma as_improper v n e : In n (bnodes b) -> dn_name n = v -> improper b v e -> as_evidence v (dn_values n) e None = Err ValueError.
Proof.
  intros Hn <- H. unfold as_evidence. destruct e as [x|q]; cbn [improper] in H; rewrite (values_of_node b WB n Hn) in H.
  - now rewrite (proj2 (index_of_None _ _) H).
  - now rewrite (proj2 (Nat.eqb_neq _ _) H).
Qed.

(** The first item of a list that is bad. *)
Lemma first_bad {A} (P : A -> bool) l : (forall x, In x l -> P x = false) \/ exists pre x post, l = pre ++ x :: post /\ P x = true /\ forall y, In y pre -> P y = false.
Proof.
  induction l as [|a l IH]; [left; intros x []|]. destruct (P a) eqn:E.
  - right. exists [], a, l. split; [reflexivity|]. split; [exact E|]. intros y [].
  - destruct IH as [H|(pre & x & post & -> & Ex & H)].
    + left. intros x [<-|I]; auto.
    + right. exists (a :: pre), x, post. split; [reflexivity|]. split; [exact Ex|]. intros y [<-|I]; auto.
Qed.

Lemma dget_filter {A} (P : string * A -> bool) v (d : dict A) : (forall e, dget v d = Some e -> P (v, e) = true) -> dget v (filter P d) = dget v d \/ ~ NoDup (dkeys d).
Proof.
  induction d as [|[k e] d IH]; intros H; [left; reflexivity|]. cbn [dget filter] in *. destruct (String.eqb_spec v k) as [->|N].
  - left. rewrite (H e eq_refl). cbn [dget]. now rewrite String.eqb_refl.
  - destruct (IH H) as [E|X]; [|right; intros Y; inversion Y; contradiction]. left. destruct (P (k, e)); [|exact E]. cbn [dget].
    destruct (String.eqb_spec v k); [contradiction|exact E].
Qed.

Lemma naive_outcome Q ev : NoDup (dkeys ev) -> weights_ok ev ->
  ((exists r, naive_marginals b Q ev = Ok r) /\ forall v e, In (v, e) ev -> In v (bnames b) -> ~ improper b v e) \/
  (naive_marginals b Q ev = Err ValueError /\ exists v e, In (v, e) ev /\ In v (bnames b) /\ improper b v e).
Proof.
  intros ND W. set (bad := fun v => match dget v ev with Some e => improperb v e | None => false end).
  destruct (first_bad bad (bnames b)) as [H|(vs & v & vs' & E & B & H)].
  - left. assert (G : forall v e, In (v, e) ev -> In v (bnames b) -> ~ improper b v e).
    { intros v e I J X. specialize (H v J). unfold bad in H. rewrite (In_dget _ _ _ ND I) in H. apply improperb_ok in X. congruence. }
    split; [|exact G]. destruct (naive_exact b WB ev (proper_ok ev ND W G) Q NN) as (r & E & _). eauto.
  - right. unfold bad in B. destruct (dget v ev) as [e|] eqn:D; [|discriminate]. apply improperb_ok in B.
    assert (Iv : In v (bnames b)) by (rewrite E; apply in_or_app; right; left; reflexivity).
    split; [|exists v, e; split; [apply dget_In, D|auto]].
    set (fit := fun p : string * evid => negb (improperb (fst p) (snd p))). set (ev' := filter fit ev).
    assert (ND' : NoDup (dkeys ev')).
    { unfold ev'. clear - ND. induction ev as [|[k x] l IH]; [constructor|]. inversion ND as [|? ? N ND']; subst. cbn [filter]. destruct (fit (k, x)); [|auto].
      cbn. constructor; [|auto]. intros I. apply N. apply in_map_iff in I as (q & <- & I). apply filter_In in I as [I _]. now apply in_map. }
    assert (EV' : ev_ok b ev').
    { apply proper_ok; [exact ND'|intros x q I; apply filter_In in I as [I _]; exact (W x q I)|]. intros x y I _ X. apply filter_In in I as [_ I].
      apply improperb_ok in X. unfold fit in I. cbn [fst snd] in I. rewrite X in I. discriminate. }
    destruct (naive_exact b WB ev' EV' Q NN) as (r & Er & _). unfold naive_marginals in Er |- *. rewrite E in Er |- *. rewrite foldM_app in Er |- *.
    assert (SAME : forall l f, (forall y, In y l -> bad y = false) -> foldM (naive_step b ev) l f = foldM (naive_step b ev') l f).
    { induction l as [|y l IH]; intros f G; [reflexivity|]. cbn [foldM]. assert (S : naive_step b ev f y = naive_step b ev' f y).
      { unfold naive_step. destruct (get_node b y) as [n|]; cbn [rbind]; [|reflexivity]. destruct (fmul f (from_node n)) as [f1|]; cbn [rbind]; [|reflexivity].
        assert (X : dget y ev' = dget y ev); [|now rewrite X]. destruct (dget_filter fit y ev) as [X|X]; [|exact X|contradiction].
        intros e' D'. specialize (G y (or_introl eq_refl)). unfold bad in G. rewrite D' in G. unfold fit. cbn [fst snd]. now rewrite G. }
      rewrite S. destruct (naive_step b ev' f y); cbn [rbind]; [|reflexivity]. apply IH. intros z Z. apply G. now right. }
    rewrite (SAME vs _ H). destruct (foldM (naive_step b ev') vs (trivial 1%Qc)) as [f|] eqn:F; cbn [rbind] in Er |- *; [|discriminate].
    cbn [foldM] in Er |- *. unfold naive_step at 1 in Er. unfold naive_step at 1. apply (in_bnames b) in Iv as (n & Hn & <-). rewrite (get_node_ok b WB n Hn) in Er |- *.
    cbn [rbind] in Er |- *. destruct (fmul f (from_node n)) as [f1|]; cbn [rbind] in Er |- *; [|discriminate].
    rewrite D. now rewrite (as_improper _ n e Hn eq_refl B).
Qed.

Lemma move_unknown Q o : NoDup o -> ~ incl Q o -> snd (move_to_end Q o) = Some ValueError.
Proof.
  revert o. induction Q as [|v Q IH]; intros o ND N; [exfalso; apply N; intros x []|]. cbn. destruct (mem v o) eqn:M; [|reflexivity].
  apply mem_In in M. assert (P : Permutation o (remove1 v o ++ [v])).
  { clear - M. induction o as [|w o IHo]; [destruct M|]. cbn. destruct (String.eqb_spec v w) as [->|D]; [apply Permutation_cons_append|].
    destruct M as [M|M]; [congruence|]. cbn. constructor. exact (IHo M). }
  apply IH; [exact (Permutation_NoDup P ND)|]. intros X. apply N. intros x [<-|I]; [exact M|]. apply (Permutation_in _ (Permutation_sym P)), X, I.
Qed.

Lemma bucket_outcome Q ev o : NoDup (dkeys ev) -> weights_ok ev -> NoDup Q -> (o = None \/ o = Some [] -> wf_graph b) ->
  (forall l, o = Some l -> l <> [] -> Permutation (bnames b) l) ->
  ((exists r, bucket_query b Q ev o = Ok r) /\ incl Q (bnames b) /\ incl (dkeys ev) (bnames b) /\ forall v e, In (v, e) ev -> ~ improper b v e) \/
  (bucket_query b Q ev o = Err ValueError /\
    ((exists v, In v Q /\ ~ In v (bnames b)) \/ (exists v, In v (dkeys ev) /\ ~ In v (bnames b)) \/ exists v e, In (v, e) ev /\ In v (bnames b) /\ improper b v e)).
Proof.
  intros ND W NQ G P.
  assert (DEC : forall l, incl l (bnames b) \/ exists v, In v l /\ ~ In v (bnames b)).
  { intros l. destruct (first_bad (fun v => negb (mem v (bnames b))) l) as [H|(pre & v & post & -> & E & _)].
    - left. intros v I. specialize (H v I). apply negb_false_iff, mem_In in H. exact H.
    - right. exists v. split; [apply in_or_app; right; left; reflexivity|]. apply negb_true_iff in E. intros X. apply mem_In in X. congruence. }
  assert (H : exists l, order_or_default b o = Ok l /\ Permutation (bnames b) l).
  { unfold order_or_default. destruct o as [[|x l]|].
    - destruct (min_degree_greedy b) as (r & E & Pr & _); [apply G; tauto|eauto].
    - exists (x :: l). split; [reflexivity|]. apply P; [reflexivity|discriminate].
    - destruct (min_degree_greedy b) as (r & E & Pr & _); [apply G; tauto|eauto]. }
  destruct H as (l & El & Pl). assert (NDl : NoDup l) by exact (Permutation_NoDup Pl (wb_names b WB)).
  destruct (DEC Q) as [IQ|(v & IQ & NIQ)].
  2: { right. split; [|left; eauto]. unfold bucket_query. rewrite El. cbn [rbind]. unfold bucket_marginals.
       assert (X : snd (move_to_end Q l) = Some ValueError).
       { apply move_unknown; [exact NDl|]. intros X. apply NIQ. apply (Permutation_in _ (Permutation_sym Pl)), X, IQ. }
       destruct (move_to_end Q l) as [o' x]. cbn in X. now subst. }
  set (bad := fun p : string * evid => negb (mem (fst p) (bnames b)) || improperb (fst p) (snd p)).
  destruct (first_bad bad ev) as [H|(pre & [v e] & post & E & B & H)].
  - left. assert (IK : incl (dkeys ev) (bnames b)).
    { intros v I. apply in_map_iff in I as ([v' e] & <- & I). specialize (H _ I). apply orb_false_iff in H as [H _]. apply negb_false_iff, mem_In in H. exact H. }
    assert (PR : forall v e, In (v, e) ev -> ~ improper b v e).
    { intros v e I X. specialize (H _ I). apply orb_false_iff in H as [_ H]. apply improperb_ok in X. cbn [fst snd] in H. congruence. }
    split; [|auto]. destruct (bucket_any_order b WB Q ev o NN (proper_ok ev ND W (fun v e I _ => PR v e I)) IK NQ IQ G P) as (r & Er & _). eauto.
  - right. assert (Iv : In (v, e) ev) by (rewrite E; apply in_or_app; right; left; reflexivity).
    assert (WHY : (exists v, In v (dkeys ev) /\ ~ In v (bnames b)) \/ exists v e, In (v, e) ev /\ In v (bnames b) /\ improper b v e).
    { unfold bad in B. cbn [fst snd] in B. destruct (mem v (bnames b)) eqn:M.
      - right. exists v, e. split; [exact Iv|]. split; [apply mem_In, M|]. apply improperb_ok. exact B.
      - left. exists v. split; [apply (in_map fst) in Iv; exact Iv|]. intros X. apply mem_In in X. congruence. }
    split; [|right; exact WHY]. clear WHY.
    assert (NDp : NoDup (dkeys pre)) by (rewrite E in ND; unfold dkeys in ND; rewrite map_app in ND; exact (NoDup_app_l _ _ ND)).
    assert (IKp : incl (dkeys pre) (bnames b)).
    { intros u I. apply in_map_iff in I as ([u' x] & <- & I). specialize (H _ I). apply orb_false_iff in H as [H _]. apply negb_false_iff, mem_In in H. exact H. }
    assert (EVp : ev_ok b pre).
    { apply proper_ok; [exact NDp|intros u q I; apply (W u q); rewrite E; apply in_or_app; now left|]. intros u x I _ X. specialize (H _ I).
      apply orb_false_iff in H as [_ H]. apply improperb_ok in X. cbn [fst snd] in H. congruence. }
    destruct (bucket_exact b WB pre EVp Q l NN NQ IQ IKp Pl) as (r & Er & _).
    unfold bucket_query. rewrite El. cbn [rbind]. unfold bucket_marginals in Er |- *. destruct (move_to_end Q l) as [o' [x|]] eqn:MV; [discriminate|].
    injection Er as -> Er. cbn [snd]. set (o' := filter (fun v => negb (mem v Q)) l ++ Q) in *. unfold bucket_core in Er |- *.
    destruct (mapM (get_node b) o') as [ns|] eqn:M; cbn [rbind] in Er |- *; [|discriminate].
    destruct (foldM (place_factor o') _ _) as [bs1|]; cbn [rbind] in Er |- *; [|discriminate]. rewrite E, foldM_app.
    destruct (foldM (add_evidence b o') pre bs1) as [bs2|]; cbn [rbind] in Er |- *; [|discriminate]. cbn [foldM].
    assert (X : add_evidence b o' bs2 (v, e) = Err ValueError); [|now rewrite X].
    unfold add_evidence. cbn [fst snd]. destruct (mem v (bnames b)) eqn:MB.
    + apply mem_In in MB. assert (Io : In v o').
      { unfold o'. apply in_or_app. destruct (mem v Q) eqn:MQ; [right; apply mem_In, MQ|left]. apply filter_In. split; [exact (Permutation_in _ Pl MB)|now rewrite MQ]. }
      rewrite (py_index_ok v _ Io). cbn [rbind]. destruct (in_bnames b v MB) as (n & Hn & <-). rewrite (get_node_ok b WB n Hn). cbn [rbind].
      rewrite (as_improper _ n e Hn eq_refl); [reflexivity|]. unfold bad in B. cbn [fst snd] in B. rewrite (proj2 (mem_In _ _) MB) in B. apply improperb_ok. exact B.
    + assert (No : ~ In v o').
      { unfold o'. intros I. apply in_app_or in I as [I|I].
        - apply filter_In in I as [I _]. apply (Permutation_in _ (Permutation_sym Pl)) in I. apply mem_In in I. congruence.
        - apply IQ in I. apply mem_In in I. congruence. }
      now rewrite (py_index_err v _ No).
Qed.
End Q.

(** ** Soft evidence as a desired posterior *)
Lemma mapM_outcome {A B} (f : A -> res B) l : (exists ys, mapM f l = Ok ys /\ forall x, In x l -> exists y, f x = Ok y) \/
  exists pre x post e, l = pre ++ x :: post /\ f x = Err e /\ mapM f l = Err e /\ forall y, In y pre -> exists c, f y = Ok c.
Proof.
  induction l as [|a l IH]; [left; exists []; split; [reflexivity|intros x []]|]. cbn. destruct (f a) as [y|e] eqn:E.
  - destruct IH as [(ys & -> & H)|(pre & x & post & e & -> & Ex & -> & H)].
    + left. exists (y :: ys). split; [reflexivity|]. intros x [<-|I]; eauto.
    + right. exists (a :: pre), x, post, e. repeat split; auto. intros z [<-|I]; eauto.
  - right. exists [], a, l, e. repeat split; auto. intros z [].
Qed.

Lemma soft_outcome v vals q old : length q = length vals -> length old = length vals ->
  (vals = [] -> as_evidence v vals (Soft q) (Some old) = Err ValueError) /\
  (forall ref refEv, argmax q = Some (ref, refEv) ->
    (refEv = 0%Qc /\ (exists i, i <> ref /\ i < length vals /\ nth i old 0%Qc <> 0%Qc) /\ as_evidence v vals (Soft q) (Some old) = Err NonFinite) \/
    (~ (refEv = 0%Qc /\ exists i, i <> ref /\ i < length vals /\ nth i old 0%Qc <> 0%Qc) /\ exists f, as_evidence v vals (Soft q) (Some old) = Ok f)).
Proof.
  intros L LO. unfold as_evidence. rewrite (proj2 (Nat.eqb_eq _ _) L). split.
  - intros ->. destruct q; [reflexivity|discriminate].
  - intros ref refEv A. unfold soft_ratio. rewrite A. set (g := fun i => if Nat.eqb i ref then Ok 1%Qc else _).
    assert (RL : ref < length q).
    { clear - A. destruct q as [|x q]; [discriminate|]. cbn in A. injection A as A.
      assert (X : forall l i bi bv r s, bi < i -> argmax_from i bi bv l = (r, s) -> r < i + length l).
      { induction l as [|y l IH]; intros i bi bv r s Hb E; cbn in E; [injection E as <- <-; cbn; lia|].
        destruct (qltb bv y); apply IH in E; cbn [length]; lia. }
      apply X in A; cbn [length]; lia. }
    assert (NE : forall i, i < length q -> exists x, nth_error old i = Some x /\ nth i old 0%Qc = x).
    { intros i Hi. destruct (nth_error old i) as [x|] eqn:E; [exists x; split; [reflexivity|]; now apply nth_error_nth|]. apply nth_error_None in E. lia. }
    assert (ERR : forall i e, i < length q -> g i = Err e -> e = NonFinite /\ refEv = 0%Qc /\ i <> ref /\ nth i old 0%Qc <> 0%Qc).
    { intros i e Hi. unfold g. destruct (Nat.eqb_spec i ref) as [->|N]; [discriminate|]. destruct (NE i Hi) as (oi & -> & ->). destruct (NE ref RL) as (or & -> & _).
      destruct (qeqb oi 0%Qc) eqn:Z; [discriminate|]. destruct (qeqb refEv 0%Qc) eqn:Z'; [|discriminate]. intros [= <-]. apply qeqb_true in Z'. apply qeqb_false in Z. auto. }
    destruct (mapM_outcome g (seq 0 (length q))) as [(ys & E & H)|(pre & i & post & e & E & Ei & EM & PO)].
    + right. rewrite E. split; [|cbn [rbind]; eauto]. intros (Z & i & N & Li & Oi). destruct (H i) as (y & Hy); [apply in_seq; lia|].
      unfold g in Hy. destruct (Nat.eqb_spec i ref) as [X|_]; [contradiction|]. destruct (NE i) as (oi & E1 & E2); [lia|]. rewrite E1 in Hy. destruct (NE ref RL) as (or & E3 & _). rewrite E3 in Hy.
      rewrite E2 in Oi. apply qeqb_false in Oi. rewrite Oi in Hy. apply qeqb_true in Z. rewrite Z in Hy. discriminate.
    + left. assert (Hi : i < length q) by (assert (X : In i (seq 0 (length q))) by (rewrite E; apply in_or_app; right; left; reflexivity); apply in_seq in X; lia).
      destruct (ERR i e Hi Ei) as (-> & Z & N & O). split; [exact Z|]. split; [exists i; split; [exact N|split; [lia|exact O]]|]. rewrite EM. reflexivity.
Qed.

Lemma argmax_at q ref m : argmax q = Some (ref, m) -> ref < length q /\ m = nth ref q 0%Qc.
Proof.
  assert (X : forall l i bi bv r s, argmax_from i bi bv l = (r, s) -> (r = bi /\ s = bv) \/ exists k, k < length l /\ r = i + k /\ s = nth k l 0%Qc).
  { induction l as [|y l IH]; intros i bi bv r s E; cbn [argmax_from] in E; [left; split; congruence|].
    destruct (qltb bv y); apply IH in E; destruct E as [[-> ->]|(k & Hk & -> & ->)].
    - right. exists 0. cbn. repeat split; lia.
    - right. exists (S k). cbn. repeat split; lia.
    - left. auto.
    - right. exists (S k). cbn. repeat split; lia. }
  destruct q as [|x q]; [discriminate|]. cbn [argmax]. destruct (argmax_from 1 0 x q) as [r s] eqn:E. intros H.
  assert (E1 := f_equal (fun o => match o with Some p => fst p | None => 0 end) H). assert (E2 := f_equal (fun o => match o with Some p => snd p | None => 0%Qc end) H).
  cbn [fst snd] in E1, E2. subst ref m. apply X in E as [[-> ->]|(k & Hk & -> & ->)]; cbn; split; (lia || reflexivity).
Qed.

Lemma soft_short v vals q old ref m : length q = length vals -> argmax q = Some (ref, m) ->
  (exists f, as_evidence v vals (Soft q) (Some old) = Ok f /\ forall i e, ~ troubled q old ref i e) \/
  exists i e, as_evidence v vals (Soft q) (Some old) = Err e /\ troubled q old ref i e /\ forall j e', j < i -> ~ troubled q old ref j e'.
Proof.
  intros L A. unfold as_evidence. rewrite (proj2 (Nat.eqb_eq _ _) L). unfold soft_ratio. rewrite A. destruct (argmax_at _ _ _ A) as [RL ->].
  set (g := fun i => if Nat.eqb i ref then Ok 1%Qc else _).
  assert (G : forall i e, i < length q -> g i = Err e <-> troubled q old ref i e).
  { intros i e Hi. unfold g. destruct (Nat.eqb_spec i ref) as [->|N].
    - split; [discriminate|]. intros T. inversion T; contradiction.
    - destruct (nth_error old i) as [oi|] eqn:Ei.
      + assert (Li : i < length old) by (apply nth_error_Some; congruence). assert (Ni := nth_error_nth old i 0%Qc Ei).
        destruct (qeqb oi 0%Qc) eqn:Z; [apply qeqb_true in Z; split; [discriminate|intros T; inversion T; try lia; congruence]|]. apply qeqb_false in Z.
        destruct (nth_error old ref) as [orf|] eqn:Er.
        * assert (Lr : ref < length old) by (apply nth_error_Some; congruence).
          destruct (qeqb (nth ref q 0%Qc) 0%Qc) eqn:Y; [apply qeqb_true in Y|apply qeqb_false in Y].
          -- split; [intros [= <-]; apply T_division; congruence|]. intros T. inversion T; try lia; reflexivity.
          -- split; [discriminate|]. intros T. inversion T; try lia; contradiction.
        * apply nth_error_None in Er. split; [intros [= <-]; apply T_short_ref; congruence|]. intros T. inversion T; try lia; reflexivity.
      + apply nth_error_None in Ei. split; [intros [= <-]; apply T_short; assumption|]. intros T. inversion T; try lia; reflexivity. }
  assert (B : forall i e, troubled q old ref i e -> i < length q) by (intros i e T; inversion T; assumption).
  destruct (mapM_outcome g (seq 0 (length q))) as [(ys & E & H)|(pre & i & post & e & E & Ei & EM & PO)].
  - left. rewrite E. cbn [rbind]. eexists. split; [reflexivity|]. intros i e T. assert (Li := B _ _ T). destruct (H i) as (y & Hy); [apply in_seq; lia|].
    apply G in T; [congruence|exact Li].
  - right. rewrite EM. assert (X : i = length pre /\ i < length q).
    { assert (X := f_equal (fun l => nth (length pre) l 0) E). cbn beta in X. rewrite app_nth2, Nat.sub_diag in X by lia. cbn [nth] in X.
      assert (Y := f_equal (@length nat) E). rewrite seq_length, app_length in Y. cbn [length] in Y. rewrite seq_nth in X by lia. lia. }
    destruct X as [X Hi]. exists i, e. split; [reflexivity|]. split; [apply G; assumption|]. intros j e' Hj T. assert (Lj := B _ _ T). apply G in T; [|exact Lj].
    destruct (PO j) as (c & Hc); [|congruence].
    assert (Z : nth j (seq 0 (length q)) 0 = j) by (rewrite seq_nth by lia; reflexivity). rewrite E, app_nth1 in Z by lia. rewrite <- Z. apply nth_In. lia.
Qed.
