(** create_jointree: clusters of a perfect elimination order, pruning, tree. *)
From Verif Require Import Base BaseFacts NDArray Factor FactorFacts Exact Spec SpecFacts Order OrderSpec OrderProof
  JoinTree HuginPure Hugin JTProof.

(** ** Clusters *)
Definition head (c : list string) : string := match c with [] => "" | v :: _ => v end.

Lemma lseqb_eq a c : lseqb a c = true <-> a = c.
Proof.
  revert c; induction a as [|x a IH]; intros [|y c]; cbn; split; intros H; try discriminate; try reflexivity.
  - apply andb_true_iff in H as [H1 H2]. apply String.eqb_eq in H1. apply IH in H2. congruence.
  - inversion H; subst. rewrite eqb_refl_s. apply IH. reflexivity.
Qed.

Lemma lseqb_neq a c : a <> c -> lseqb a c = false.
Proof. intros N. apply not_true_is_false. intros E. apply N, lseqb_eq, E. Qed.

Lemma cindex_split R A B : ~ In R A -> cindex R (A ++ R :: B) = Some (length A).
Proof.
  induction A as [|x A IH]; cbn; intros N.
  - rewrite (proj2 (lseqb_eq R R) eq_refl). reflexivity.
  - rewrite lseqb_neq by (intros E; apply N; left; congruence). rewrite IH by tauto. reflexivity.
Qed.

Lemma cremove_split R A B : ~ In R A -> cremove R (A ++ R :: B) = A ++ B.
Proof.
  induction A as [|x A IH]; cbn; intros N.
  - rewrite (proj2 (lseqb_eq R R) eq_refl). reflexivity.
  - rewrite lseqb_neq by (intros E; apply N; left; congruence). rewrite IH by tauto. reflexivity.
Qed.

Lemma list_insert_app {A} (l m : list A) x : list_insert (length l) x (l ++ m) = l ++ x :: m.
Proof. induction l as [|y l IH]; cbn; [destruct m; reflexivity|]. rewrite IH. reflexivity. Qed.

Lemma swap1_before A M B R D : NoDup (A ++ M :: B ++ R :: D) ->
  swap1 (A ++ M :: B ++ R :: D) (R, M) = Ok (A ++ B ++ M :: D).
Proof.
  intros ND. unfold swap1. cbn [fst snd].
  assert (NR : ~ In R (A ++ M :: B)).
  { replace (A ++ M :: B ++ R :: D) with ((A ++ M :: B) ++ R :: D) in ND by (rewrite <- app_assoc; reflexivity).
    apply NoDup_remove_2 in ND. intros H; apply ND, in_or_app; auto. }
  assert (NM : ~ In M A) by (apply NoDup_remove_2 in ND; intros H; apply ND, in_or_app; auto).
  replace (A ++ M :: B ++ R :: D) with ((A ++ M :: B) ++ R :: D) by (rewrite <- app_assoc; reflexivity).
  rewrite cindex_split, cremove_split by exact NR. rewrite list_insert_app. rewrite <- app_assoc. cbn [app].
  rewrite cremove_split by exact NM. reflexivity.
Qed.

Lemma swap1_after A M B R D : NoDup (A ++ R :: B ++ M :: D) ->
  swap1 (A ++ R :: B ++ M :: D) (R, M) = Ok (A ++ B ++ M :: D).
Proof.
  intros ND. unfold swap1. cbn [fst snd].
  assert (NR : ~ In R A) by (apply NoDup_remove_2 in ND; intros H; apply ND, in_or_app; auto).
  assert (NM : ~ In M A).
  { replace (A ++ R :: B ++ M :: D) with ((A ++ R :: B) ++ M :: D) in ND by (rewrite <- app_assoc; reflexivity).
    apply NoDup_remove_2 in ND. intros H; apply ND. apply in_or_app; left; apply in_or_app; auto. }
  rewrite cindex_split, cremove_split by exact NR. rewrite list_insert_app.
  rewrite cremove_split by exact NM. reflexivity.
Qed.

(** Running intersection of a sequence, with non-empty separators. *)
Definition rip (L : list (list string)) : Prop := forall pre c post, L = pre ++ c :: post -> post <> [] ->
  (exists d, In d post /\ forall v e, In v c -> In e post -> In v e -> In v d) /\
  exists v d, In v c /\ In d post /\ In v d.

Lemma rip_tail c L : rip (c :: L) -> rip L.
Proof. intros H pre d post E. apply (H (c :: pre)). rewrite E. reflexivity. Qed.

(** One swap. *)
Record sinv (todo : list (list string)) (L : list (list string)) : Prop := {
  si_rip : rip L;
  si_nodup : NoDup L;
  si_in : incl todo L;
  si_first : forall c pre post, In c todo -> L = pre ++ c :: post -> forall e, In e post -> ~ In (head c) e
}.

Lemma split_app {A} (l1 l2 : list A) pre c post : l1 ++ l2 = pre ++ c :: post ->
  (exists m, l1 = pre ++ c :: m /\ post = m ++ l2) \/ (exists m, pre = l1 ++ m /\ l2 = m ++ c :: post).
Proof.
  revert pre; induction l1 as [|x l1 IH]; cbn; intros pre E; [right; exists pre; auto|].
  destruct pre as [|y pre]; cbn in E; inversion E; subst.
  - left. exists l1. auto.
  - destruct (IH pre H1) as [(m & -> & ->)|(m & -> & ->)]; [left|right]; exists m; auto.
Qed.

Section Swap.
Variables (todo : list (list string)) (R M : list string).
Hypothesis Mtodo : In M todo.
Hypothesis Rtodo : ~ In R todo.
Hypothesis heads : forall c d, In c todo -> In d todo -> head c = head d -> c = d.
Hypothesis RM : forall v, In v M <-> v = head M \/ In v R.

Lemma swap_sub v : In v R -> In v M. Proof. intros H. apply RM; auto. Qed.

Lemma swap_before A B D : sinv todo (A ++ M :: B ++ R :: D) -> sinv todo (A ++ B ++ M :: D).
Proof.
  intros [S1 S2 S3 S4].
  assert (NM : forall e, In e (B ++ R :: D) -> ~ In (head M) e) by (intros e He; apply (S4 M A (B ++ R :: D) Mtodo eq_refl e He)).
  split.
  - intros pre c post E Np. symmetry in E. symmetry in E. apply split_app in E as [(m & -> & ->)|(m & -> & E)].
    + (* c in A *)
      rewrite <- app_assoc in S1. cbn [app] in S1.
      destruct (S1 pre c (m ++ M :: B ++ R :: D) eq_refl) as [(d & Hd & Id) (v & d2 & Hv & Hd2 & Hv2)].
      { destruct m; discriminate. }
      assert (X : forall e, In e (m ++ B ++ M :: D) -> In e (m ++ M :: B ++ R :: D)).
      { intros e. rewrite !in_app_iff. cbn. rewrite !in_app_iff. cbn. tauto. }
      assert (Y : forall e, In e (m ++ M :: B ++ R :: D) -> e = R \/ In e (m ++ B ++ M :: D)).
      { intros e. rewrite !in_app_iff. cbn. rewrite !in_app_iff. cbn. intuition. }
      assert (HM : In M (m ++ B ++ M :: D)) by (rewrite !in_app_iff; cbn; tauto).
      split.
      * destruct (Y d Hd) as [->|Hd'].
        -- exists M. split; [exact HM|]. intros w e Hw He Hwe. apply swap_sub. apply (Id w e Hw (X e He) Hwe).
        -- exists d. split; [exact Hd'|]. intros w e Hw He Hwe. apply (Id w e Hw (X e He) Hwe).
      * destruct (Y d2 Hd2) as [->|Hd'].
        -- exists v, M. split; [exact Hv|]. split; [exact HM|]. apply swap_sub, Hv2.
        -- exists v, d2. auto.
    + apply split_app in E as [(m2 & -> & ->)|(m2 & -> & E)].
      * (* c in B *)
        assert (Nc : ~ In (head M) c) by (apply NM; rewrite !in_app_iff; cbn; tauto).
        destruct (S1 (A ++ M :: m) c (m2 ++ R :: D)) as [(d & Hd & Id) (v & d2 & Hv & Hd2 & Hv2)].
        { repeat (rewrite <- ?app_assoc; cbn [app]). reflexivity. } { destruct m2; discriminate. }
        assert (Y : forall e, In e (m2 ++ R :: D) -> e = R \/ In e (m2 ++ M :: D)).
        { intros e. rewrite !in_app_iff. cbn. intuition. }
        assert (X : forall w e, In w c -> In e (m2 ++ M :: D) -> In w e -> exists e', In e' (m2 ++ R :: D) /\ In w e').
        { intros w e Hw He Hwe. apply in_app_or in He as [He|[<-|He]].
          - exists e. split; [apply in_or_app; auto|exact Hwe].
          - apply RM in Hwe as [->|Hwe]; [contradiction|]. exists R. split; [apply in_elt|exact Hwe].
          - exists e. split; [apply in_or_app; right; right; exact He|exact Hwe]. }
        assert (HM : In M (m2 ++ M :: D)) by apply in_elt.
        split.
        -- destruct (Y d Hd) as [->|Hd'].
           ++ exists M. split; [exact HM|]. intros w e Hw He Hwe. destruct (X w e Hw He Hwe) as (e' & He' & Hwe').
              apply swap_sub. exact (Id w e' Hw He' Hwe').
           ++ exists d. split; [exact Hd'|]. intros w e Hw He Hwe. destruct (X w e Hw He Hwe) as (e' & He' & Hwe').
              exact (Id w e' Hw He' Hwe').
        -- destruct (Y d2 Hd2) as [->|Hd'].
           ++ exists v, M. split; [exact Hv|]. split; [exact HM|]. apply swap_sub, Hv2.
           ++ exists v, d2. auto.
      * destruct m2 as [|x m2]; cbn in E; injection E as E1 E2; [subst c post|subst x D].
        -- (* c = M *)
           destruct (S1 (A ++ M :: B) R D) as [(d & Hd & Id) (v & d2 & Hv & Hd2 & Hv2)]; [|exact Np|].
           { rewrite <- app_assoc; reflexivity. }
           split.
           ++ exists d. split; [exact Hd|]. intros w e Hw He Hwe. apply RM in Hw as [->|Hw].
              ** exfalso. apply (NM e); [apply in_or_app; right; right; exact He|exact Hwe].
              ** exact (Id w e Hw He Hwe).
           ++ exists v, d2. split; [apply swap_sub, Hv|auto].
        -- (* c in D *)
           apply (S1 (A ++ M :: B ++ R :: m2) c post); [|exact Np]. repeat (rewrite <- ?app_assoc; cbn [app]). reflexivity.
  - assert (P : Permutation (A ++ M :: B ++ R :: D) (R :: A ++ B ++ M :: D)).
    { transitivity (A ++ R :: M :: B ++ D).
      - apply Permutation_app_head. rewrite perm_swap. apply perm_skip. symmetry; apply Permutation_middle.
      - rewrite <- Permutation_middle. apply perm_skip. apply Permutation_app_head. apply Permutation_middle. }
    apply (Permutation_NoDup P) in S2. inversion S2; assumption.
  - intros c Hc. assert (c <> R) by (intros ->; contradiction). specialize (S3 c Hc).
    repeat (rewrite in_app_iff in S3 || cbn in S3). repeat (rewrite in_app_iff || cbn). intuition congruence.
  - intros c pre post Hc E e He. apply split_app in E as [(m & -> & ->)|(m & -> & E)].
    + apply (S4 c pre (m ++ M :: B ++ R :: D) Hc); [rewrite <- app_assoc; reflexivity|].
      repeat (rewrite in_app_iff in He || cbn in He). repeat (rewrite in_app_iff || cbn). intuition.
    + apply split_app in E as [(m2 & -> & ->)|(m2 & -> & E)].
      * assert (Q : forall e, In e (m2 ++ R :: D) -> ~ In (head c) e).
        { apply (S4 c (A ++ M :: m) (m2 ++ R :: D) Hc). repeat (rewrite <- ?app_assoc; cbn [app]). reflexivity. }
        apply in_app_or in He as [He|[<-|He]].
        -- apply Q, in_or_app; auto.
        -- intros H. apply RM in H as [H|H].
           ++ assert (c = M) as -> by (apply heads; assumption).
              apply NoDup_remove_2 in S2. apply S2. repeat (rewrite in_app_iff || cbn). auto.
           ++ revert H. apply Q, in_elt.
        -- apply Q, in_or_app; right; right; exact He.
      * destruct m2 as [|x m2]; cbn in E; injection E as E1 E2; [subst c post|subst x D].
        -- apply NM. apply in_or_app; right; right; exact He.
        -- apply (S4 c (A ++ M :: B ++ R :: m2) post Hc); [|exact He]. repeat (rewrite <- ?app_assoc; cbn [app]). reflexivity.
Qed.

Lemma swap_after A B D : sinv todo (A ++ R :: B ++ M :: D) -> sinv todo (A ++ B ++ M :: D).
Proof.
  intros [S1 S2 S3 S4]. split.
  - intros pre c post E Np. apply split_app in E as [(m & -> & ->)|(m & -> & E)].
    + rewrite <- app_assoc in S1. cbn [app] in S1.
      destruct (S1 pre c (m ++ R :: B ++ M :: D) eq_refl) as [(d & Hd & Id) (v & d2 & Hv & Hd2 & Hv2)].
      { destruct m; discriminate. }
      assert (X : forall e, In e (m ++ B ++ M :: D) -> In e (m ++ R :: B ++ M :: D)).
      { intros e. rewrite !in_app_iff. cbn. rewrite !in_app_iff. cbn. tauto. }
      assert (Y : forall e, In e (m ++ R :: B ++ M :: D) -> e = R \/ In e (m ++ B ++ M :: D)).
      { intros e. rewrite !in_app_iff. cbn. rewrite !in_app_iff. cbn. intuition. }
      assert (HM : In M (m ++ B ++ M :: D)) by (rewrite !in_app_iff; cbn; tauto).
      split.
      * destruct (Y d Hd) as [->|Hd'].
        -- exists M. split; [exact HM|]. intros w e Hw He Hwe. apply swap_sub. apply (Id w e Hw (X e He) Hwe).
        -- exists d. split; [exact Hd'|]. intros w e Hw He Hwe. apply (Id w e Hw (X e He) Hwe).
      * destruct (Y d2 Hd2) as [->|Hd'].
        -- exists v, M. split; [exact Hv|]. split; [exact HM|]. apply swap_sub, Hv2.
        -- exists v, d2. auto.
    + apply (S1 (A ++ R :: m) c post); [|exact Np]. rewrite <- app_assoc. cbn [app]. rewrite <- E. reflexivity.
  - apply NoDup_remove_1 in S2. exact S2.
  - intros c Hc. assert (c <> R) by (intros ->; contradiction). specialize (S3 c Hc).
    repeat (rewrite in_app_iff in S3 || cbn in S3). repeat (rewrite in_app_iff || cbn). intuition congruence.
  - intros c pre post Hc E e He. apply split_app in E as [(m & -> & ->)|(m & -> & E)].
    + apply (S4 c pre (m ++ R :: B ++ M :: D) Hc); [rewrite <- app_assoc; reflexivity|].
      repeat (rewrite in_app_iff in He || cbn in He). repeat (rewrite in_app_iff || cbn). intuition.
    + apply (S4 c (A ++ R :: m) post Hc); [|exact He]. rewrite <- app_assoc. cbn [app]. rewrite <- E. reflexivity.
Qed.

Lemma swap_step L : In R L -> sinv todo L ->
  exists L', swap1 L (R, M) = Ok L' /\ sinv todo L' /\ Permutation L (R :: L').
Proof.
  intros HR S. assert (HM := si_in _ _ S M Mtodo). assert (NRM : R <> M) by (intros E; apply Rtodo; rewrite E; exact Mtodo).
  apply in_split in HR as (A & D & ->). apply in_app_or in HM as [HM|[HM|HM]]; [|congruence|].
  - apply in_split in HM as (A1 & A2 & ->). rewrite <- app_assoc in *. cbn [app] in *.
    exists (A1 ++ A2 ++ M :: D). split; [apply swap1_before, S|]. split; [apply swap_before, S|].
    transitivity (A1 ++ R :: M :: A2 ++ D).
    + apply Permutation_app_head. rewrite perm_swap. apply perm_skip. symmetry; apply Permutation_middle.
    + rewrite <- Permutation_middle. apply perm_skip. apply Permutation_app_head. apply Permutation_middle.
  - apply in_split in HM as (D1 & D2 & ->).
    exists (A ++ D1 ++ M :: D2). split; [apply swap1_after, S|]. split; [apply swap_after, S|].
    symmetry; apply Permutation_middle.
Qed.
End Swap.

(** ** Clusters of an elimination order *)
Section Clusters.
Variable adj : string -> string -> Prop.
Hypothesis adj_sym : forall u v, adj u v -> adj v u.
Hypothesis adj_irr : forall u, ~ adj u u.

(** Cluster i: node i with its neighbours among the later nodes. *)
Inductive clus : list string -> list (list string) -> Prop :=
| clus_nil : clus [] []
| clus_cons v o l cs : NoDup (v :: l) -> (forall u, In u l <-> adj v u /\ In u o) -> clus o cs -> clus (v :: o) ((v :: l) :: cs).

(** The later neighbours of each node are connected with each other. *)
Definition perfect (order : list string) : Prop := forall pre v post, order = pre ++ v :: post ->
  forall x y, In x post -> In y post -> adj v x -> adj v y -> x <> y -> adj x y.

(** Every node but the last has a later neighbour. *)
Definition linkedup (order : list string) : Prop := forall pre v post, order = pre ++ v :: post -> post <> [] ->
  exists u, In u post /\ adj v u.

Lemma perfect_tail v o : perfect (v :: o) -> perfect o.
Proof. intros H pre x post E. apply (H (v :: pre)). rewrite E; reflexivity. Qed.
Lemma linkedup_tail v o : linkedup (v :: o) -> linkedup o.
Proof. intros H pre x post E. apply (H (v :: pre)). rewrite E; reflexivity. Qed.

Lemma clus_split order cs : clus order cs -> forall pre c post, cs = pre ++ c :: post ->
  exists opre v opost l, order = opre ++ v :: opost /\ c = v :: l /\ NoDup c /\
    (forall u, In u l <-> adj v u /\ In u opost) /\ clus opost post /\ length opre = length pre.
Proof.
  induction 1 as [|v o l cs ND HL H IH]; intros pre c post E.
  - destruct pre; discriminate.
  - destruct pre as [|x pre]; cbn in E; inversion E; subst.
    + exists [], v, o, l. auto 10.
    + destruct (IH pre c post eq_refl) as (opre & w & opost & l' & E1 & E2 & E3 & E4 & E5 & E6).
      exists (v :: opre), w, opost, l'. rewrite E1. cbn. auto 10.
Qed.

Lemma clus_osplit order cs : clus order cs -> forall pre v post, order = pre ++ v :: post ->
  exists cpre l cpost, cs = cpre ++ (v :: l) :: cpost /\ NoDup (v :: l) /\
    (forall u, In u l <-> adj v u /\ In u post) /\ clus post cpost /\ length cpre = length pre.
Proof.
  induction 1 as [|v o l cs ND HL H IH]; intros pre w post E.
  - destruct pre; discriminate.
  - destruct pre as [|x pre]; cbn in E; inversion E; subst.
    + exists [], l, cs. auto 10.
    + destruct (IH pre w post eq_refl) as (cpre & l' & cpost & E1 & E3 & E4 & E5 & E6).
      exists ((x :: l) :: cpre), l', cpost. rewrite E1. cbn. auto 10.
Qed.

Lemma clus_in order cs : clus order cs -> forall c v, In c cs -> In v c -> In v order.
Proof.
  induction 1 as [|v o l cs ND HL H IH]; intros c w Hc Hw; [contradiction|destruct Hc as [<-|Hc]].
  - destruct Hw as [<-|Hw]; [left; reflexivity|right]. apply HL in Hw; tauto.
  - right. eapply IH; eassumption.
Qed.

Lemma clus_heads order cs : clus order cs -> map head cs = order.
Proof. induction 1; cbn; congruence. Qed.

Lemma clus_nodup order cs : clus order cs -> NoDup order -> NoDup cs.
Proof.
  intros H ND. rewrite <- (clus_heads _ _ H) in ND. clear H.
  induction cs as [|c cs IH]; [constructor|]. cbn in ND. inversion ND; subst. constructor; [|auto].
  intros K. apply H1, in_map, K.
Qed.

Lemma clus_heads_inj order cs : clus order cs -> NoDup order -> forall c d, In c cs -> In d cs -> head c = head d -> c = d.
Proof.
  intros H ND. rewrite <- (clus_heads _ _ H) in ND. clear H.
  induction cs as [|e cs IH]; cbn; [tauto|]. cbn in ND. inversion ND; subst.
  intros c d [<-|Hc] [<-|Hd] E; [reflexivity| | |].
  - exfalso; apply H1. rewrite E. apply in_map, Hd.
  - exfalso; apply H1. rewrite <- E. apply in_map, Hc.
  - apply IH; assumption.
Qed.

Lemma clus_rip order cs : clus order cs -> NoDup order -> perfect order -> linkedup order -> rip cs.
Proof.
  intros H ND P LK pre c post E Np.
  destruct (clus_split _ _ H pre c post E) as (opre & v & opost & l & EO & -> & NDc & HL & HC & _).
  assert (Nv : ~ In v opost).
  { rewrite EO in ND. apply NoDup_app_r in ND. inversion ND; assumption. }
  assert (NO : NoDup opost) by (rewrite EO in ND; apply NoDup_app_r in ND; inversion ND; assumption).
  assert (NPo : opost <> []) by (intros ->; inversion HC; subst; congruence).
  destruct (LK opre v opost EO NPo) as (u0 & Hu0 & Au0).
  (* the first later neighbour *)
  assert (F : exists p1 u p2, opost = p1 ++ u :: p2 /\ adj v u /\ forall x, In x p1 -> ~ In x l).
  { assert (Hex : exists u, In u opost /\ In u l) by (exists u0; split; [exact Hu0|apply HL; auto]).
    assert (HL' : forall u, In u l -> adj v u) by (intros u Hu; apply HL in Hu; tauto).
    clear - Hex HL'. induction opost as [|x o IH].
    - destruct Hex as (u & [] & _).
    - destruct (In_dec_s x l) as [Hx|Hx].
      + exists [], x, o. split; [reflexivity|]. split; [apply HL', Hx|intros ? []].
      + destruct IH as (p1 & u & p2 & -> & A & B).
        { destruct Hex as (u & [->|Hu] & Hl); [contradiction|]. exists u; auto. }
        exists (x :: p1), u, p2. split; [reflexivity|]. split; [exact A|]. intros y [<-|Hy]; auto. }
  destruct F as (p1 & u & p2 & EP & Au & Hp1).
  destruct (clus_osplit _ _ HC p1 u p2 EP) as (cpre & l' & cpost & EC & _ & HL2 & _).
  split.
  - exists (u :: l'). split; [rewrite EC; apply in_elt|].
    intros w e Hw He Hwe. assert (Ho : In w opost) by (apply (clus_in _ _ HC e); assumption).
    destruct Hw as [<-|Hw]; [contradiction|]. assert (Aw := proj1 (HL w) Hw).
    destruct (String.eqb_spec u w) as [->|N]; [left; reflexivity|right]. apply HL2. split.
    + apply (P opre v opost EO); try tauto. rewrite EP. apply in_elt.
    + rewrite EP in Ho. apply in_app_or in Ho as [Ho|[Ho|Ho]]; [|contradiction|exact Ho].
      exfalso. apply (Hp1 _ Ho), Hw.
  - exists u, (u :: l'). split; [right; apply HL; split; [exact Au|rewrite EP; apply in_elt]|].
    split; [rewrite EC; apply in_elt|left; reflexivity].
Qed.

(** The nearest earlier cluster that contains a cluster has exactly one more member. *)
Lemma last_superset_spec c before d : last_superset c before = Some d ->
  exists b1 b2, before = b1 ++ d :: b2 /\ incl c d /\ forall e, In e b2 -> ~ incl c e.
Proof.
  revert d; induction before as [|x before IH]; cbn; intros d E; [discriminate|].
  destruct (last_superset c before) as [e|] eqn:EL.
  - inversion E; subst. destruct (IH d eq_refl) as (b1 & b2 & -> & A & B). exists (x :: b1), b2. auto.
  - destruct (subset c x) eqn:ES; [|discriminate]. inversion E; subst.
    exists [], before. split; [reflexivity|]. split; [apply subset_spec, ES|].
    clear - EL. intros e He Hc. induction before as [|y l IHl]; [contradiction|]. cbn in EL.
    destruct (last_superset c l); [discriminate|]. destruct He as [<-|He].
    + apply subset_spec in Hc. rewrite Hc in EL. discriminate.
    + apply IHl; [reflexivity|exact He].
Qed.

Lemma last_superset_none c before : last_superset c before = None -> forall e, In e before -> ~ incl c e.
Proof.
  induction before as [|y l IHl]; cbn; intros E e He Hc; [contradiction|].
  destruct (last_superset c l); [discriminate|]. destruct He as [<-|He].
  - apply subset_spec in Hc. rewrite Hc in E. discriminate.
  - exact (IHl eq_refl e He Hc).
Qed.

Lemma superset_exact order cs pre c post d : clus order cs -> NoDup order -> perfect order -> cs = pre ++ c :: post ->
  last_superset c pre = Some d -> forall v, In v d <-> v = head d \/ In v c.
Proof.
  intros H ND P E ES. destruct (last_superset_spec _ _ _ ES) as (b1 & b2 & -> & Hcd & Hb2).
  rewrite <- app_assoc in E. cbn [app] in E.
  destruct (clus_split _ _ H b1 d _ E) as (o1 & vd & o2 & ld & EO & -> & NDd & HLd & HC2 & _).
  destruct (clus_split _ _ HC2 b2 c post eq_refl) as (o3 & vc & o4 & lc & EO2 & -> & NDc & HLc & _ & _).
  cbn [head]. intros v. split; [|intros [->|Hv]; [left; reflexivity|apply Hcd, Hv]].
  intros [<-|Hv]; [left; reflexivity|]. right.
  assert (NDo2 : NoDup o2) by (rewrite EO in ND; apply NoDup_app_r in ND; inversion ND; assumption).
  assert (Nvd : ~ In vd o2) by (rewrite EO in ND; apply NoDup_app_r in ND; inversion ND; assumption).
  assert (Hvc : In vc ld).
  { destruct (Hcd vc (or_introl eq_refl)) as [Ev|Ev]; [|exact Ev]. exfalso. apply Nvd. rewrite Ev, EO2. apply in_elt. }
  destruct (In_dec_s v (vc :: lc)) as [Hin|Hni]; [exact Hin|exfalso].
  assert (Av := proj1 (HLd v) Hv). assert (Avc := proj1 (HLd vc) Hvc).
  assert (Nvc : vc <> v) by (intros ->; apply Hni; left; reflexivity).
  assert (Ac : adj vc v) by (apply (P o1 vd o2 EO); tauto).
  destruct Av as [Av Hvo]. rewrite EO2 in Hvo. apply in_app_or in Hvo as [Hvo|[Hvo|Hvo]]; [|congruence|].
  - apply in_split in Hvo as (q1 & q2 & ->).
    rewrite <- app_assoc in EO2. cbn [app] in EO2.
    destruct (clus_osplit _ _ HC2 q1 v _ EO2) as (e1 & le & e2 & EE & _ & HLe & HCe & _).
    (* the cluster of v lies in b2 and contains c *)
    assert (HinB : In (v :: le) b2).
    { destruct (clus_osplit _ _ HCe q2 vc o4 eq_refl) as (e3 & l3 & e4 & EE2 & _ & _ & _ & _).
      rewrite EE2 in EE. symmetry in EE.
      replace (e1 ++ (v :: le) :: e3 ++ (vc :: l3) :: e4) with ((e1 ++ (v :: le) :: e3) ++ (vc :: l3) :: e4) in EE
        by (rewrite <- app_assoc; reflexivity).
      assert (NDcs := clus_nodup _ _ HC2 NDo2).
      assert (El : (vc :: l3) = (vc :: lc)).
      { apply (clus_heads_inj _ _ HC2 NDo2); [rewrite <- EE; apply in_elt|apply in_elt|reflexivity]. }
      rewrite El in EE. rewrite <- EE in NDcs.
      assert (X : e1 ++ (v :: le) :: e3 = b2).
      { clear - EE NDcs. revert EE NDcs. generalize (e1 ++ (v :: le) :: e3) as l. generalize (vc :: lc) as c.
        intros c. revert b2. intros b2 l. revert b2. induction l as [|x l IHl]; intros [|y b2] EE ND; cbn in EE; inversion EE; subst.
        - reflexivity.
        - exfalso. cbn in ND. inversion ND as [|? ? NN NN2]; subst. apply NN, in_elt.
        - exfalso. cbn in ND. inversion ND as [|? ? NN NN2]; subst. apply NN, in_elt.
        - f_equal. apply IHl; [assumption|]. cbn in ND. inversion ND; assumption. }
      rewrite <- X. apply in_elt. }
    apply (Hb2 _ HinB). intros w Hw. assert (Hwd := Hcd w Hw).
    destruct (String.eqb_spec v w) as [->|Nvw]; [left; reflexivity|right]. apply HLe.
    assert (Hwo : In w (vc :: o4)) by (destruct Hw as [<-|Hw]; [left; reflexivity|right; apply HLc in Hw; tauto]).
    split; [|apply in_or_app; right; exact Hwo].
    assert (Hwo2 : In w o2) by (rewrite EO2; apply in_or_app; right; right; apply in_or_app; right; exact Hwo).
    destruct Hwd as [<-|Hwd]; [contradiction|]. apply HLd in Hwd.
    apply (P o1 vd o2 EO); try tauto. rewrite EO2. apply in_elt.
  - apply Hni. right. apply HLc. auto.
Qed.

(** ** Pruning *)
Lemma swaps_up_app pre l1 l2 : swaps_up pre (l1 ++ l2) = swaps_up pre l1 ++ swaps_up (pre ++ l1) l2.
Proof.
  revert pre; induction l1 as [|c l1 IH]; intros pre; cbn; [rewrite app_nil_r; reflexivity|].
  rewrite IH, <- !app_assoc. reflexivity.
Qed.

Lemma sinv_less t1 t2 L : incl t2 t1 -> sinv t1 L -> sinv t2 L.
Proof.
  intros I [S1 S2 S3 S4]. split; try assumption.
  - intros c Hc; apply S3, I, Hc.
  - intros c pre post Hc. apply S4, I, Hc.
Qed.

Definition pruned (cs L : list (list string)) : Prop :=
  rip L /\ NoDup L /\ incl L cs /\ (forall c, In c cs -> exists d, In d L /\ incl c d) /\
  (forall c d, In c L -> In d cs -> d <> c -> ~ incl c d).

Lemma prune_from order cs : clus order cs -> NoDup order -> perfect order ->
  forall pre post L, cs = pre ++ post -> sinv pre L -> incl L cs ->
  (forall c, In c cs -> exists d, In d L /\ incl c d) ->
  (forall c d, In c L -> In c post -> In d cs -> d <> c -> ~ incl c d) ->
  exists L', foldM swap1 (rev (swaps_up [] pre)) L = Ok L' /\ pruned cs L'.
Proof.
  intros H ND P. assert (NDcs := clus_nodup _ _ H ND).
  induction pre as [|c pre IH] using rev_ind; intros post L E S IL CV AC.
  - cbn. exists L. split; [reflexivity|]. split; [apply S|]. split; [apply S|]. split; [exact IL|]. split; [exact CV|].
    intros c d Hc Hd. apply AC; try assumption. rewrite E in IL. apply IL, Hc.
  - rewrite <- app_assoc in E. cbn [app] in E.
    rewrite swaps_up_app, rev_app_distr. cbn [swaps_up app]. rewrite app_nil_r.
    assert (Nc : ~ In c pre).
    { intros K. rewrite E in NDcs. apply NoDup_remove_2 in NDcs. apply NDcs, in_or_app; auto. }
    assert (Hhead : forall e, In e post -> ~ In (head c) e).
    { destruct (clus_split _ _ H pre c post E) as (o1 & v & o2 & l & EO & -> & _ & _ & HC & _).
      intros e He K. cbn [head] in K. apply (clus_in _ _ HC e v He) in K.
      rewrite EO in ND. apply NoDup_app_r in ND. inversion ND; contradiction. }
    assert (S' : sinv pre L) by (apply (sinv_less (pre ++ [c])); [intros x Hx; apply in_or_app; auto|exact S]).
    assert (HcL : In c L) by (apply (si_in _ _ S), in_elt).
    assert (Hhc : In (head c) c).
    { destruct (clus_split _ _ H pre c post E) as (o1 & v & o2 & l & EO & -> & _). left; reflexivity. }
    destruct (last_superset c pre) as [d|] eqn:EL; cbn [rev app foldM].
    + destruct (last_superset_spec _ _ _ EL) as (b1 & b2 & Eb & Icd & _).
      assert (Hd : In d pre) by (rewrite Eb; apply in_elt).
      destruct (swap_step pre c d Hd Nc) with (L := L) as (L' & E1 & S1 & P1); [| |exact HcL|exact S'|].
      * intros x y Hx Hy. apply (clus_heads_inj _ _ H ND); rewrite E; apply in_or_app; auto.
      * apply (superset_exact order cs pre c post d H ND P E EL).
      * rewrite E1. cbn [rbind]. apply (IH (c :: post)); [exact E|exact S1| | |].
        -- intros x Hx. apply IL. apply (Permutation_in x (Permutation_sym P1)). right; exact Hx.
        -- intros x Hx. destruct (CV x Hx) as (y & Hy & Ixy). apply (Permutation_in y P1) in Hy as [<-|Hy].
           ++ exists d. split; [apply (si_in _ _ S1), Hd|]. intros z Hz; apply Icd, Ixy, Hz.
           ++ exists y; auto.
        -- intros x y Hx Hxp. destruct Hxp as [<-|Hxp].
           ++ exfalso. assert (NN := Permutation_NoDup P1 (si_nodup _ _ S')). inversion NN; contradiction.
           ++ apply AC; [|exact Hxp]. apply (Permutation_in x (Permutation_sym P1)). right; exact Hx.
    + apply (IH (c :: post)); try assumption.
      intros x y Hx [<-|Hxp] Hy Nxy; [|apply AC; assumption].
      rewrite E in Hy. apply in_app_or in Hy as [Hy|[Hy|Hy]]; [|congruence|].
      * apply (last_superset_none _ _ EL y Hy).
      * intros I. apply (Hhead y Hy), I, Hhc.
Qed.

Lemma prune_ok order cs : clus order cs -> NoDup order -> perfect order -> linkedup order ->
  exists L, prune cs = Ok L /\ pruned cs L.
Proof.
  intros H ND P LK. unfold prune, swaps. apply (prune_from order cs H ND P cs []).
  - rewrite app_nil_r; reflexivity.
  - split.
    + apply (clus_rip order); assumption.
    + apply (clus_nodup order); assumption.
    + apply incl_refl.
    + intros c pre post Hc E e He K.
      destruct (clus_split _ _ H pre c post E) as (o1 & v & o2 & l & EO & -> & _ & _ & HC & _).
      cbn [head] in K. apply (clus_in _ _ HC e v He) in K.
      rewrite EO in ND. apply NoDup_app_r in ND. inversion ND; contradiction.
  - apply incl_refl.
  - intros c Hc. exists c. split; [exact Hc|apply incl_refl].
  - intros c d _ [].
Qed.

(** Members of a cluster are pairwise connected; every clique of [adj] is in some cluster. *)
Lemma clus_clique order cs : clus order cs -> perfect order -> forall c u v, In c cs -> In u c -> In v c -> u <> v -> adj u v.
Proof.
  intros H P c u v Hc Hu Hv N. apply in_split in Hc as (pre & post & E).
  destruct (clus_split _ _ H pre c post E) as (o1 & x & o2 & l & EO & -> & _ & HL & _).
  destruct Hu as [<-|Hu], Hv as [<-|Hv]; [congruence| | |].
  - apply HL, Hv.
  - apply adj_sym, HL, Hu.
  - apply HL in Hu, Hv. apply (P o1 x o2 EO); tauto.
Qed.

Lemma clus_cover order cs : clus order cs -> forall F, F <> [] -> incl F order ->
  (forall u v, In u F -> In v F -> u <> v -> adj u v) -> exists c, In c cs /\ incl F c.
Proof.
  induction 1 as [|v o l cs ND HL H IH]; intros F NF I A.
  - exfalso. destruct F as [|x F]; [congruence|]. apply (I x); left; reflexivity.
  - destruct (In_dec_s v F) as [Hv|Hv].
    + exists (v :: l). split; [left; reflexivity|]. intros u Hu.
      destruct (String.eqb_spec v u) as [->|N]; [left; reflexivity|right]. apply HL. split; [auto|].
      destruct (I u Hu); [congruence|assumption].
    + destruct (IH F NF) as (c & Hc & Ic); [|exact A|].
      * intros u Hu. destruct (I u Hu) as [->|K]; [contradiction|exact K].
      * exists c. split; [right; exact Hc|exact Ic].
Qed.

(** Connected graphs: a predicate closed under [adj] that holds somewhere holds everywhere. *)
Definition connected (S : list string) : Prop := forall Q : string -> Prop,
  (exists u, In u S /\ Q u) -> (forall u v, In u S -> In v S -> Q u -> adj u v -> Q v) -> forall v, In v S -> Q v.

Lemma connected_tail v o : (forall x y, In x o -> In y o -> adj v x -> adj v y -> x <> y -> adj x y) ->
  connected (v :: o) -> connected o.
Proof.
  intros P C Q (u & Hu & Qu) Cl w Hw.
  assert (K : (fun z => (In z o -> Q z) /\ (z = v -> forall y, In y o -> adj v y -> Q y)) w).
  { apply (C (fun z => (In z o -> Q z) /\ (z = v -> forall y, In y o -> adj v y -> Q y))).
    - exists u. split; [right; exact Hu|]. split; [auto|]. intros -> y Hy A. apply (Cl v y); assumption.
    - intros a c Ha Hc [Q1 Q2] A. split.
      + intros Hco. destruct Ha as [->|Ha]; [apply Q2; auto|]. apply (Cl a c); auto.
      + intros -> y Hy Ay. destruct Ha as [<-|Ha]; [exfalso; apply (adj_irr _ A)|].
        destruct (String.eqb_spec a y) as [->|N]; [auto|]. apply (Cl a y); auto.
    - right; exact Hw. }
  exact (proj1 K Hw).
Qed.

Lemma connected_linkedup order : NoDup order -> perfect order -> connected order ->
  (forall u v, adj u v \/ ~ adj u v) -> linkedup order.
Proof.
  intros ND P C Dec. induction order as [|v o IH]; intros pre x post E Np; [destruct pre; discriminate|].
  inversion ND as [|? ? Nv NDo]; subst.
  destruct pre as [|y pre]; cbn in E; inversion E; subst.
  - assert (D : forall l, (exists u, In u l /\ adj x u) \/ forall u, In u l -> ~ adj x u).
    { induction l as [|u l IHl]; [right; intros ? []|]. destruct (Dec x u) as [A|A]; [left; exists u; split; [left|]; auto|].
      destruct IHl as [(w & Hw & Aw)|K]; [left; exists w; split; [right|]; auto|]. right. intros w [<-|Hw]; auto. }
    destruct (D post) as [?|K]; [assumption|exfalso].
    destruct post as [|z post]; [congruence|].
    assert (z = x).
    { apply (C (fun w => w = x)); [exists x; split; [left|]; reflexivity| |right; left; reflexivity].
      intros a c Ha Hc -> A. destruct Hc as [<-|Hc]; [reflexivity|]. exfalso; apply (K c Hc A). }
    subst. apply Nv. left; reflexivity.
  - apply (IH NDo (perfect_tail _ _ P)) with (pre := pre); [|reflexivity|exact Np].
    apply (connected_tail y); [|exact C]. intros a c Ha Hc. apply (P [] y _ eq_refl); assumption.
Qed.
End Clusters.
