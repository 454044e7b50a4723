(** Which calls of the decision methods raise: proofs. *)
From Verif Require Import Base BaseFacts NDArray NDArrayFacts SumCalc Factor FactorFacts FactorSpec FactorProofs Exact Spec SpecFacts Node Network NetSpec NetFacts NetInv
  NetView NetTable MCSpec Decision DecSpec DecInv DecVE DecView DecNorm DecFacts DecOpt DecElim DecErrSpec.
From Coq Require Import Field.

Lemma decide_prepare fixed ds : (forall v d, In (v, d) ds -> dget v fixed = Some d) -> forall w, decide_all w ds = prepare w (dkeys ds) fixed.
Proof.
  induction ds as [|(v & d) ds IH]; intros F w; [reflexivity|]. change (dkeys ((v, d) :: ds)) with (v :: dkeys ds). cbn [decide_all prepare].
  destruct (dget v (dlook w)) as [i|]; [|reflexivity]. rewrite (F v d (or_introl eq_refl)).
  destruct (d_decide w i d) as [w' [u|e]]; [|reflexivity]. apply IH. intros u' x H. apply F. right; exact H.
Qed.

Definition nonneg_node (n : node) : Prop := Forall (fun x => (0 <= x)%Qc) (data (tarr (ncpd n))).

Lemma mixed_nonneg n n' : mixed n n' -> nonneg_node n'.
Proof.
  intros (t & -> & RT & _ & V). unfold nonneg_node. cbn [ncpd with_cpd]. rewrite (data_aget _ RT). apply Forall_forall. intros z Hz.
  apply in_map_iff in Hz as (ix & <- & Hix). rewrite V by apply In_indices, Hix. apply qnat_inv_nonneg.
Qed.

Lemma decided_nonneg h n n' d : d_ok h n -> nkind n = KDecision -> nvalues n <> [] -> decided n n' d -> nonneg_node n'.
Proof.
  intros D K NE (t & -> & RT & SH & V). unfold nonneg_node. cbn [ncpd with_cpd]. rewrite (data_aget _ RT). apply Forall_forall. intros z Hz.
  apply in_map_iff in Hz as (ix & <- & Hix). apply In_indices in Hix. destruct ix as [|a b].
  - rewrite SH, (dk_shape _ _ D), (own_dims_values n (or_intror K) NE) in Hix. inversion Hix.
  - rewrite V by exact Hix. destruct (Nat.eqb _ _); discriminate.
Qed.

Lemma set_decision_err n d : nkind n = KDecision -> nvalues n <> [] -> ~ In d (nvalues n) ->
  exists n', set_decision n d = (n', Err ValueError) /\ face n' = face n /\ nporder n' = nporder n.
Proof.
  intros K NE N. unfold set_decision, own_index. rewrite K. destruct (nvalues n) as [|y l] eqn:E; [contradiction|].
  rewrite (py_index_err d _ N). cbn [rbind]. eexists. split; [reflexivity|]. destruct (ncpd n); split; reflexivity.
Qed.

Lemma same_refl w vs : same_but w w vs.
Proof. constructor; [reflexivity|]. intros v i n H. exists n. auto. Qed.

Lemma same_trans w w1 w2 vs vs1 vs2 : incl vs1 vs -> incl vs2 vs -> same_but w w1 vs1 -> same_but w1 w2 vs2 -> same_but w w2 vs.
Proof.
  intros S1 S2 A B. constructor; [rewrite (sb_look _ _ _ B); apply (sb_look _ _ _ A)|]. intros v i n H.
  destruct (sb_objs _ _ _ A v i n H) as (n1 & H1 & F1 & P1 & E1). destruct (sb_objs _ _ _ B v i n1 H1) as (n2 & H2 & F2 & P2 & E2).
  exists n2. split; [exact H2|]. split; [congruence|]. split; [congruence|]. intros N. rewrite E2, E1; [reflexivity| |]; intros X; apply N; auto.
Qed.

Lemma same_set w v i n n' : dinv w -> dholds w v i n -> face n' = face n -> nporder n' = nporder n ->
  same_but w (mkDW (list_set i n' (dheap w)) (dlook w)) [v] /\ dholds (mkDW (list_set i n' (dheap w)) (dlook w)) v i n'.
Proof.
  intros I H F P. assert (G := set_table w v i n n' I H). split.
  - constructor; [reflexivity|]. intros u j m Hm. eexists. split; [apply (G u j m Hm)|]. destruct (string_dec u v) as [->|N].
    + assert (m = n) by (destruct Hm, H; congruence). subst m. split; [exact F|]. split; [exact P|]. intros X. exfalso. apply X. left; reflexivity.
    + auto.
  - assert (X := G v i n H). destruct (string_dec v v); [exact X|contradiction].
Qed.

Lemma fault_same w w' vs v x e : dinv w -> same_but w w' vs -> fault w v x e <-> fault w' v x e.
Proof.
  intros I X. split; intros H; destruct H as [v x N|v x i n H K|v d i n H K N].
  - apply fault_name. rewrite (sb_look _ _ _ X). exact N.
  - destruct (sb_objs _ _ _ X v i n H) as (n' & H' & F & _). unfold face in F. injection F as F1 F2 F3.
    apply (fault_kind w' v x i n' H'). congruence.
  - destruct (sb_objs _ _ _ X v i n H) as (n' & H' & F & _). unfold face in F. injection F as F1 F2 F3.
    apply (fault_value w' v d i n' H'); congruence.
  - apply fault_name. rewrite <- (sb_look _ _ _ X). exact N.
  - destruct (same_back w w' vs I X v i n H) as (m & Hm & F & _). unfold face in F. injection F as F1 F2 F3.
    apply (fault_kind w v x i m Hm). congruence.
  - destruct (same_back w w' vs I X v i n H) as (m & Hm & F & _). unfold face in F. injection F as F1 F2 F3.
    apply (fault_value w v d i m Hm); congruence.
Qed.

Lemma fault_fun w v x e e' : fault w v x e -> fault w v x e' -> e = e'.
Proof.
  assert (H0 : forall v i n, dholds w v i n -> In v (dkeys (dlook w))).
  { intros u i n [D _]. apply dget_In in D. exact (in_map fst _ _ D). }
  intros A B. destruct A as [v x N|v x i n H K|v d i n H K N]; inversion B as [v' x' N'|v' x' i' n' H' K'|v' d' i' n' H' K' N']; subst; try reflexivity; try (exfalso; eapply N, H0; eassumption);
    try (exfalso; eapply N', H0; eassumption); assert (n' = n) by (destruct H, H'; congruence); subst; contradiction.
Qed.

Lemma first_fault_fun w l e e' : first_fault w l e -> first_fault w l e' -> e = e'.
Proof.
  intros (l1 & v & x & l2 & E & F & A) (m1 & v' & x' & m2 & E' & F' & A'). subst l. symmetry in E'. revert m1 E' F'.
  induction l1 as [|p l1 IH]; intros [|q m1] E' F'; cbn in E'; injection E' as E1 E2.
  - inversion E1; subst. exact (fault_fun _ _ _ _ _ A A').
  - subst q. exfalso. exact (F' v x e (or_introl eq_refl) A).
  - subst p. exfalso. exact (F v' x' e' (or_introl eq_refl) A').
  - apply (IH (fun u y z Hu => F u y z (or_intror Hu)) m1 E2 (fun u y z Hu => F' u y z (or_intror Hu))).
Qed.

Lemma faultless_not w l e : faultless w l -> ~ first_fault w l e.
Proof. intros F (l1 & v & x & l2 & -> & _ & A). apply (F v x e); [apply in_or_app; right; left; reflexivity|exact A]. Qed.

Lemma step_outcome w v x : dinv w -> dtidy w ->
  exists w' r, (match dget v (dlook w) with
     | None => (w, Err KeyError)
     | Some i => match x with None => d_on_node w i fully_mixed | Some d => d_decide w i d end
     end) = (w', r) /\ dinv w' /\ same_but w w' [v] /\
   ((r = Ok tt /\ (forall e, ~ fault w v x e) /\ forall i n', dholds w' v i n' -> nonneg_node n') \/ (exists e, r = Err e /\ fault w v x e)).
Proof.
  intros I T. destruct (dget v (dlook w)) as [i|] eqn:D.
  2: { exists w, (Err KeyError). split; [reflexivity|]. split; [exact I|]. split; [apply same_refl|]. right. exists KeyError. split; [reflexivity|].
       apply fault_name, dget_None, D. }
  destruct (di_named w I v i D) as (n & Hn & _ & _). assert (H : dholds w v i n) by (split; assumption).
  assert (OK : forall e, fault w v x e -> (nkind n = KDecision -> exists d, x = Some d /\ ~ In d (nvalues n))).
  { intros e F K. destruct F as [v x N|v x j m Hm Km|v d j m Hm Km N].
    - exfalso. apply N. apply dget_In in D. exact (in_map fst _ _ D).
    - assert (m = n) by (destruct Hm; congruence). congruence.
    - assert (m = n) by (destruct Hm; congruence). subst m. exists d. auto. }
  assert (NK : nkind n <> KDecision -> fault w v x AttributeError) by (intros K; exact (fault_kind w v x i n H K)).
  assert (ED : forall o, dholds (mkDW (list_set i o (dheap w)) (dlook w)) v i o -> forall j m, dholds (mkDW (list_set i o (dheap w)) (dlook w)) v j m -> m = o).
  { intros o [A B] j m [A' B']. congruence. }
  destruct x as [d|].
  - unfold d_decide. rewrite Hn. assert (ID := inv_decide w i d I). unfold d_decide in ID. rewrite Hn in ID. cbn [fst] in ID.
    destruct (nkind n) eqn:K.
    1,2,3: unfold set_decision in *; rewrite K in *; cbn [fst snd] in *; do 2 eexists; (split; [reflexivity|]); (split; [exact ID|]);
      (split; [apply (same_set w v i n n I H); reflexivity|]); right; exists AttributeError; (split; [reflexivity|apply NK; congruence]).
    assert (NE : nvalues n <> []) by (apply (T v i n H); congruence).
    destruct (In_dec_s d (nvalues n)) as [Id|Nd].
    + destruct (set_decision_ok (dheap w) n d (di_ok w I i n Hn) K Id) as (n' & E & DD). rewrite E in *. cbn [fst snd] in *.
      destruct (decided_same _ _ _ DD) as (F & P & _). destruct (same_set w v i n n' I H F P) as [SB Hv].
      do 2 eexists. split; [reflexivity|]. split; [exact ID|]. split; [exact SB|]. left. split; [reflexivity|]. split.
      * intros e X. destruct (OK e X eq_refl) as (y & Ey & N). injection Ey as <-. contradiction.
      * intros j m Hm. rewrite (ED n' Hv j m Hm). exact (decided_nonneg (dheap w) n n' d (di_ok w I i n Hn) K NE DD).
    + destruct (set_decision_err n d K NE Nd) as (n' & E & F & P). rewrite E in *. cbn [fst snd] in *.
      destruct (same_set w v i n n' I H F P) as [SB Hv].
      do 2 eexists. split; [reflexivity|]. split; [exact ID|]. split; [exact SB|]. right. exists ValueError. split; [reflexivity|].
      exact (fault_value w v d i n H K Nd).
  - unfold d_on_node. rewrite Hn. assert (ID := inv_mixed w i I). unfold d_on_node in ID. rewrite Hn in ID.
    destruct (nkind n) eqn:K.
    1,2,3: unfold fully_mixed in *; rewrite K in *; cbn [fst snd] in *; do 2 eexists; (split; [reflexivity|]); (split; [exact ID|]);
      (split; [apply same_refl|]); right; exists AttributeError; (split; [reflexivity|apply NK; congruence]).
    assert (NE : nvalues n <> []) by (apply (T v i n H); congruence).
    destruct (fully_mixed_ok n K NE) as (n' & E & M). rewrite E in *. cbn [fst] in *. destruct (mixed_same _ _ M) as (F & P).
    destruct (same_set w v i n n' I H F P) as [SB Hv].
    do 2 eexists. split; [reflexivity|]. split; [exact ID|]. split; [exact SB|]. left. split; [reflexivity|]. split.
    + intros e X. destruct (OK e X eq_refl) as (y & Ey & _). discriminate.
    + intros j m Hm. rewrite (ED n' Hv j m Hm). exact (mixed_nonneg n n' M).
Qed.

Lemma prepare_outcome fixed order : forall w, dinv w -> dtidy w ->
  exists w1 r, prepare w order fixed = (w1, r) /\ dinv w1 /\ same_but w w1 order /\
   ((r = Ok tt /\ faultless w (wanted_items order fixed) /\ forall v i n', In v order -> dholds w1 v i n' -> nonneg_node n') \/
    (exists e, r = Err e /\ first_fault w (wanted_items order fixed) e)).
Proof.
  induction order as [|v order IH]; intros w I T.
  - exists w, (Ok tt). split; [reflexivity|]. split; [exact I|]. split; [apply same_refl|]. left. split; [reflexivity|].
    split; [intros v x e []|intros v i n' []].
  - destruct (step_outcome w v (dget v fixed) I T) as (w' & r & E & I' & SB & O). cbn [prepare].
    assert (T' := same_tidy w w' [v] I SB T). unfold wanted_items. cbn [map].
    destruct O as [(-> & NF & NN)|(e & -> & F)].
    + destruct (IH w' I' T') as (w2 & r2 & E2 & I2 & SB2 & O2).
      assert (ST : same_but w w2 (v :: order)).
      { apply (same_trans w w' w2 _ [v] order); [intros u [<-|[]]; left; reflexivity|intros u Hu; right; exact Hu|exact SB|exact SB2]. }
      exists w2, r2. split.
      { destruct (dget v (dlook w)) as [i|]; [|discriminate E]. rewrite E. exact E2. }
      split; [exact I2|]. split; [exact ST|]. destruct O2 as [(-> & FL & NN2)|(e & -> & FF)].
      * left. split; [reflexivity|]. split.
        -- intros u x e [X|X]; [injection X as <- <-; apply NF|]. rewrite (fault_same w w' [v] u x e I SB). apply FL, X.
        -- intros u i m Hu Hm. destruct (In_dec_s u order) as [X|X]; [apply (NN2 u i m X Hm)|]. destruct Hu as [<-|Hu]; [|contradiction].
           destruct (same_back w' w2 order I' SB2 v i m Hm) as (m' & Hm' & _). destruct (sb_objs _ _ _ SB2 v i m' Hm') as (m2 & Hm2 & _ & _ & Em).
           assert (m2 = m) by (destruct Hm, Hm2; congruence). subst m2. rewrite (Em X). apply (NN i m' Hm').
      * right. exists e. split; [reflexivity|]. destruct FF as (l1 & u & x & l2 & El & Fl & Fu).
        exists ((v, dget v fixed) :: l1), u, x, l2. split; [unfold wanted_items in El; rewrite El; reflexivity|]. split.
        -- intros u' x' e' [X|X]; [injection X as <- <-; apply NF|]. rewrite (fault_same w w' [v] u' x' e' I SB). apply Fl, X.
        -- apply (fault_same w w' [v] u x e I SB), Fu.
    + exists w', (Err e). split.
      { destruct (dget v (dlook w)) as [i|]; [rewrite E; reflexivity|]. injection E as -> E. rewrite E. reflexivity. }
      split; [exact I'|]. split.
      * apply (same_trans w w' w' _ [v] []); [intros u [<-|[]]; left; reflexivity|intros u []|exact SB|apply same_refl].
      * right. exists e. split; [reflexivity|]. exists [], v, (dget v fixed), (map (fun v => (v, dget v fixed)) order).
        split; [reflexivity|]. split; [intros ? ? ? []|exact F].
Qed.
