(** The exceptions of decision networks, and of reading tables. *)
From Verif Require Import Base BaseFacts NDArray NDArrayFacts IOMore Factor Exact Spec Node Network NetSpec NetFacts NetInv NetOps NetOps2 NetRename NetTop NetView NetTable
  Decision DecSpec DecInv ErrSpec ErrProof.

Lemma mapM_err {A B} (f : A -> res B) l e : mapM f l = Err e -> exists x, In x l /\ f x = Err e.
Proof.
  induction l as [|a l IH]; [discriminate|]. cbn. destruct (f a) as [y|e'] eqn:E; cbn.
  - destruct (mapM f l) as [ys|e2]; cbn; [discriminate|]. intros [= <-]. destruct (IH eq_refl) as (x & Hx & X). exists x. split; [now right|exact X].
  - intros [= <-]. exists a. split; [now left|exact E].
Qed.

Lemma mapM_each {A B} (f : A -> res B) l ys x : mapM f l = Ok ys -> In x l -> exists y, f x = Ok y.
Proof.
  revert ys. induction l as [|a l IH]; intros ys E []; cbn in E; destruct (f a) as [y|] eqn:Ea; try discriminate; cbn in E;
    destruct (mapM f l) as [ys'|]; try discriminate; [subst; eauto|exact (IH ys' eq_refl H)].
Qed.

Lemma mapM_Forall2 {A B C} (f : A -> res B) (g : A -> C) (R : C -> B -> Prop) l ys : mapM f l = Ok ys ->
  (forall x y, In x l -> f x = Ok y -> R (g x) y) -> Forall2 R (map g l) ys.
Proof.
  revert ys. induction l as [|a l IH]; intros ys E H; cbn in E; [injection E as <-; constructor|].
  destruct (f a) as [y|] eqn:Ea; [|discriminate]. cbn in E. destruct (mapM f l) as [ys'|]; [|discriminate]. injection E as <-. cbn. constructor.
  - apply H; [now left|exact Ea].
  - apply IH; [reflexivity|]. intros x z Hx. apply H. now right.
Qed.

Lemma sel_inb l sh : Forall2 sel_in (map Fix l) sh -> inb sh l.
Proof.
  revert sh. induction l as [|i l IH]; intros sh H; inversion H; subst; constructor; [assumption|]. now apply IH.
Qed.

Lemma inb_each sh l : inb sh l -> Forall2 (fun d l => Forall (fun i => i < d) l) sh (map (fun i => [i]) l).
Proof. induction 1; cbn; constructor; [|assumption]. constructor; [assumption|constructor]. Qed.

(** ** Reading *)
Section Read.
Context (h : heap) (n : node) (vals : string -> list string).
Context (PV : forall q, In q (nporder n) -> parent_values h n q = Ok (vals q)).
Context (SH : shape (tarr (ncpd n)) = own_dims n ++ map (fun q => length (vals q)) (nporder n)).

Lemma own_dims_eq : nkind n = KDiscrete -> own_dims n = if nvalues n then [] else [length (nvalues n)].
Proof. intros K. unfold own_dims. rewrite K. destruct (nvalues n); reflexivity. Qed.

Lemma py_index_cases y l : In y l /\ py_index y l = Ok (idx y l) \/ ~ In y l /\ py_index y l = Err ValueError.
Proof. destruct (In_dec_s y l) as [I|N]; [left; split; [exact I|apply py_index_ok, I]|right; split; [exact N|apply py_index_err, N]]. Qed.

Lemma pick_index_cases pv q : In q (nporder n) ->
  (exists k y, dget q pv = Some k /\ picks k y /\ ~ In y (vals q)) /\ pick_index h n pv q = Err ValueError \/
  (forall k y, dget q pv = Some k -> picks k y -> In y (vals q)) /\
    exists l, pick_index h n pv q = Ok l /\ Forall (fun i => i < length (vals q)) l.
Proof.
  intros Iq. unfold pick_index. rewrite (PV q Iq). cbn [rbind]. destruct (dget q pv) as [[x|l]|].
  - destruct (py_index_cases x (vals q)) as [[I ->]|[N ->]].
    + right. split; [intros k y [= <-] ->; exact I|]. eexists. split; [reflexivity|]. constructor; [apply idx_lt, I|constructor].
    + left. split; [exists (One x), x; split; [reflexivity|split; [reflexivity|exact N]]|reflexivity].
  - destruct (mapM (fun x => py_index x (vals q)) l) as [ys|e] eqn:E.
    + right. split.
      * intros k y [= <-] Hy. destruct (mapM_each _ _ _ y E Hy) as (i & Ei). destruct (py_index_cases y (vals q)) as [[I _]|[_ X]]; [exact I|congruence].
      * exists ys. split; [reflexivity|]. revert ys E. induction l as [|x l IH]; intros ys E; cbn in E; [injection E as <-; constructor|].
        destruct (py_index_cases x (vals q)) as [[I X]|[_ X]]; rewrite X in E; [|discriminate]. cbn in E.
        destruct (mapM _ l) as [ys'|]; [|discriminate]. injection E as <-. constructor; [apply idx_lt, I|apply IH; reflexivity].
    + left. destruct (mapM_err _ _ _ E) as (y & Hy & Ey). destruct (py_index_cases y (vals q)) as [[_ X]|[N X]]; [congruence|].
      assert (e = ValueError) by congruence. subst e. split; [exists (Many l), y; auto|reflexivity].
  - right. split; [discriminate|]. eexists. split; [reflexivity|]. apply Forall_forall. intros i Hi. apply in_seq in Hi. lia.
Qed.

Lemma ix_ok_list sh ls : Forall2 (fun d l => Forall (fun i => i < d) l) sh ls -> ix_ok sh ls = true.
Proof.
  intros F. unfold ix_ok. apply andb_true_iff. split.
  - apply Nat.eqb_eq. induction F; cbn; congruence.
  - induction F as [|d l sh ls H F IH]; [reflexivity|]. cbn. apply andb_true_iff. split; [|exact IH]. apply forallb_forall. intros i Hi.
    rewrite Forall_forall in H. apply Nat.ltb_lt, H, Hi.
Qed.

Definition unknown_in (pv : dict pick) : Prop := exists q k y, In q (nporder n) /\ dget q pv = Some k /\ picks k y /\ ~ In y (vals q).

Lemma get_prob_cases x pv : nkind n = KDiscrete ->
  (unknown_value n x \/ unknown_in pv) /\ get_probability h n x pv = Err ValueError \/
  ~ (unknown_value n x \/ unknown_in pv) /\ exists a, get_probability h n x pv = Ok a.
Proof.
  intros K. unfold get_probability. rewrite K. destruct (own_index_cases n x) as [[U ->]|[U (l & -> & SO)]]; [left; auto|]. cbn [rbind].
  destruct (mapM (pick_index h n pv) (nporder n)) as [s|e] eqn:E.
  - right. split.
    + intros [X|(q & k & y & Iq & D & P & N)]; [contradiction|]. destruct (mapM_each _ _ _ q E Iq) as (ys & Eq).
      destruct (pick_index_cases pv q Iq) as [[_ X]|[X _]]; [congruence|exact (N (X k y D P))].
    + cbn [rbind]. rewrite ix_ok_list; [eauto|]. rewrite SH, (own_dims_eq K). apply Forall2_app.
      * apply inb_each, sel_inb, SO.
      * apply (mapM_Forall2 _ (fun q => length (vals q)) _ _ _ E). intros q ys Iq Eq.
        destruct (pick_index_cases pv q Iq) as [[_ X]|[_ (l' & X & F)]]; [congruence|]. assert (l' = ys) by congruence. subst. exact F.
  - left. destruct (mapM_err _ _ _ E) as (q & Iq & Eq). destruct (pick_index_cases pv q Iq) as [[(k & y & D & P & N) X]|[_ (l' & X & _)]]; [|congruence].
    cbn [rbind]. split; [right; exists q, k, y; auto|congruence].
Qed.

Notation missing := (missing n).
Notation wrong := (wrong vals n).

Lemma parent_index_cases st q : In q (nporder n) ->
  ~ In q (dkeys st) /\ parent_index h n st q = Err KeyError \/
  (exists y, dget q st = Some y /\ ~ In y (vals q)) /\ parent_index h n st q = Err ValueError \/
  (exists y, dget q st = Some y /\ In y (vals q)) /\ exists i, parent_index h n st q = Ok i /\ i < length (vals q).
Proof.
  intros Iq. assert (P := PV q Iq). unfold parent_values in P. unfold parent_index.
  destruct (dget_err KeyError q (nparents n)) as [o|]; [|discriminate]. cbn [rbind] in *. destruct (hget h o) as [m|]; [|discriminate]. cbn [rbind] in *.
  rewrite P. cbn [rbind]. unfold dget_err. destruct (dget q st) as [y|] eqn:D.
  - right. cbn [rbind]. destruct (py_index_cases y (vals q)) as [[I ->]|[N ->]]; [right|left].
    + split; [eauto|]. eexists. split; [reflexivity|apply idx_lt, I].
    + split; [eauto|reflexivity].
  - left. split; [apply dget_None, D|reflexivity].
Qed.

Lemma parent_indices_cases st :
  (exists e, mapM (parent_index h n st) (nporder n) = Err e /\ (e = KeyError /\ missing st \/ e = ValueError /\ wrong st)) \/
  (~ missing st /\ ~ wrong st /\ exists s, mapM (parent_index h n st) (nporder n) = Ok s /\ inb (map (fun q => length (vals q)) (nporder n)) s).
Proof.
  destruct (mapM (parent_index h n st) (nporder n)) as [s|e] eqn:E.
  - right. split; [|split].
    + intros (q & Iq & N). destruct (mapM_each _ _ _ q E Iq) as (i & Ei). destruct (parent_index_cases st q Iq) as [[_ X]|[[_ X]|[(y & D & _) _]]]; try congruence.
      apply N. apply dget_In in D. now apply (in_map fst) in D.
    + intros (q & y & Iq & D & N). destruct (mapM_each _ _ _ q E Iq) as (i & Ei).
      destruct (parent_index_cases st q Iq) as [[_ X]|[[_ X]|[(y' & D' & I) _]]]; try congruence.
    + exists s. split; [reflexivity|]. assert (F := mapM_Forall2 _ (fun q => length (vals q)) (fun d i => i < d) _ _ E).
      assert (X : Forall2 (fun d i => i < d) (map (fun q => length (vals q)) (nporder n)) s).
      { apply F. intros q i Iq Ei. destruct (parent_index_cases st q Iq) as [[_ X]|[[_ X]|[_ (j & X & L)]]]; try congruence. }
      clear - X. induction X; constructor; assumption.
  - left. exists e. split; [reflexivity|]. destruct (mapM_err _ _ _ E) as (q & Iq & Eq). destruct (parent_index_cases st q Iq) as [[N X]|[[(y & D & N) X]|[_ (j & X & L)]]].
    + left. split; [congruence|exists q; auto].
    + right. split; [congruence|exists q, y; auto].
    + congruence.
Qed.

Lemma single_cases x st : nkind n = KDiscrete ->
  (exists e, single_probability h n x st = Err e /\ (e = ValueError /\ (unknown_value n x \/ wrong st) \/ e = KeyError /\ missing st /\ ~ unknown_value n x)) \/
  ~ (unknown_value n x \/ wrong st \/ missing st) /\ exists q, single_probability h n x st = Ok q.
Proof.
  intros K. unfold single_probability. rewrite K. destruct (own_index_cases n x) as [[U ->]|[U (l & -> & SO)]].
  { left. exists ValueError. split; [reflexivity|left; auto]. }
  cbn [rbind]. destruct (parent_indices_cases st) as [(e & -> & C)|(NM & NW & s & -> & B)].
  - left. exists e. split; [reflexivity|]. destruct C as [[-> M]|[-> W]]; auto.
  - right. split; [tauto|]. cbn [rbind]. unfold aget_err. assert (X : inb (shape (tarr (ncpd n))) (l ++ s)).
    { rewrite SH, (own_dims_eq K). apply inb_app; [|exact B]. apply sel_inb, SO. }
    apply inbb_spec in X. rewrite X. eauto.
Qed.

Lemma utility_cases st : nkind n = KUtility ->
  (exists e, get_utility h n st = Err e /\ (e = ValueError /\ wrong st \/ e = KeyError /\ missing st \/
     e = TypeError /\ ~ wrong st /\ ~ missing st /\ exists q, ncpd n = TNum q)) \/
  ~ (wrong st \/ missing st) /\ (exists int a, ncpd n = TArr int a) /\ exists q, get_utility h n st = Ok q.
Proof.
  intros K. unfold get_utility. rewrite K. destruct (parent_indices_cases st) as [(e & -> & C)|(NM & NW & s & -> & B)]; cbn [rbind].
  - left. exists e. split; [reflexivity|]. tauto.
  - destruct (ncpd n) as [q|int a] eqn:EC.
    + left. exists TypeError. split; [reflexivity|]. right. right. eauto.
    + right. split; [tauto|]. split; [eauto|]. unfold aget_err. cbn [tarr] in SH. unfold own_dims in SH. rewrite K in SH. cbn in SH. rewrite <- SH in B.
      apply inbb_spec in B. rewrite B. eauto.
Qed.
End Read.
