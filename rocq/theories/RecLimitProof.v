(** Message passing under a recursion limit. *)
From Coq Require Import Relations.
From Verif Require Import Base BaseFacts NDArray NDArrayFacts Factor FactorFacts Exact Spec SpecFacts
  Order OrderSpec OrderProof JoinTree HuginPure Hugin JTProof JTProof2 JTBuild JTBuild2 JTBuild3 TreeSpec JTTop JTJunction JTHistory JTAgain JTAgain2 JTAgain3
  PartTree RecLimit RecLimitSpec.

(** ** Height *)
Fixpoint height (r : rtree) : nat := match r with RT k cs => S (list_max (map height cs)) end.

Lemma height_child k cs c : In c cs -> height c < height (RT k cs).
Proof.
  intros H. cbn [height]. apply Nat.lt_succ_r. assert (X := proj1 (list_max_le (map height cs) (list_max (map height cs))) (Nat.le_refl _)).
  rewrite Forall_forall in X. apply X. apply in_map, H.
Qed.

Lemma max_child cs n : n < list_max (map height cs) -> exists c, In c cs /\ n < height c.
Proof.
  induction cs as [|c cs IH]; [cbn; lia|]. change (list_max (map height (c :: cs))) with (Nat.max (height c) (list_max (map height cs))). intros H. destruct (Nat.lt_ge_cases n (height c)) as [L|L]; [exists c; split; [now left|exact L]|].
  destruct IH as (d & Hd & L'); [lia|]. exists d. split; [right; exact Hd|exact L'].
Qed.

Section Messages.
Context {SO : SetOrder}.

Lemma tadj_skel t t' : skel t = skel t' -> tadj t = tadj t'.
Proof. apply skel_adj. Qed.

Lemma each_same {A} (f g : A -> jtree -> jtree * res unit) l (I : jtree -> Prop) :
  (forall x t, In x l -> I t -> f x t = g x t) -> (forall x t, In x l -> I t -> I (fst (g x t))) ->
  forall t, I t -> each f l t = each g l t.
Proof.
  induction l as [|x l IH]; intros H1 H2 t It; [reflexivity|]. cbn [each]. rewrite (H1 x t (or_introl eq_refl) It).
  assert (X := H2 x t (or_introl eq_refl) It). destruct (g x t) as [t1 [u|e]]; [|reflexivity].
  apply IH; [| |exact X]; intros; [apply H1|apply H2]; auto; now right.
Qed.

Lemma pull_same r : forall n m p t, height r <= n -> height r <= m -> adjok (tadj t) p r -> pull n (rkey r) p t = pull m (rkey r) p t.
Proof.
  induction r as [k cs IH] using rtree_ind'. intros n m p t Hn Hm Ad.
  destruct n as [|n]; [cbn in Hn; lia|]. destruct m as [|m]; [cbn in Hm; lia|]. cbn [pull rkey].
  inversion Ad as [? ? ? Af Ac]; subst. rewrite Af.
  rewrite (each_same (fun y => pull n y (Some k)) (fun y => pull m y (Some k)) (map rkey cs) (fun t' => tadj t' = tadj t)); [reflexivity| | |reflexivity].
  - intros y t' Hy E. apply in_map_iff in Hy as (c & <- & Hc). rewrite Forall_forall in IH, Ac.
    assert (L := height_child k cs c Hc). apply IH; [exact Hc|lia|lia|]. rewrite E. apply Ac, Hc.
  - intros y t' _ E. rewrite (tadj_skel _ _ (skel_pull m y (Some k) t')). exact E.
Qed.

Lemma push_same r : forall n m p t, height r <= n -> height r <= m -> adjok (tadj t) p r -> push n (rkey r) p t = push m (rkey r) p t.
Proof.
  induction r as [k cs IH] using rtree_ind'. intros n m p t Hn Hm Ad.
  destruct n as [|n]; [cbn in Hn; lia|]. destruct m as [|m]; [cbn in Hm; lia|]. cbn [push rkey].
  inversion Ad as [? ? ? Af Ac]; subst. rewrite Af.
  apply (each_same _ _ (map rkey cs) (fun t' => tadj t' = tadj t)); [| |reflexivity].
  - intros y t' Hy E. apply in_map_iff in Hy as (c & <- & Hc). rewrite Forall_forall in IH, Ac.
    assert (L := height_child k cs c Hc). assert (S := skel_send k (rkey c) t'). destruct (send k (rkey c) t') as [t1 [u|e]]; [|reflexivity].
    apply IH; [exact Hc|lia|lia|]. cbn in S. rewrite (tadj_skel _ _ S), E. apply Ac, Hc.
  - intros y t' _ E. assert (S := skel_send k y t'). destruct (send k y t') as [t1 [u|e]]; cbn in S |- *.
    + rewrite (tadj_skel _ _ (skel_push m y (Some k) t1)), (tadj_skel _ _ S). exact E.
    + rewrite (tadj_skel _ _ S). exact E.
Qed.

(** Calls that come back normally are deep enough. *)
Lemma each_ok {A} (f : A -> jtree -> jtree * res unit) l (I : jtree -> Prop) : (forall x t, In x l -> I t -> I (fst (f x t))) ->
  forall t, I t -> snd (each f l t) = Ok tt -> forall x, In x l -> exists t', I t' /\ snd (f x t') = Ok tt.
Proof.
  induction l as [|x l IH]; intros H t It E y Hy; [destruct Hy|]. cbn [each] in E. assert (X := H x t (or_introl eq_refl) It).
  destruct (f x t) as [t1 [[]|e]] eqn:Ef; [|discriminate]. cbn in X. destruct Hy as [<-|Hy]; [exists t; rewrite Ef; auto|].
  apply (IH (fun x t Hx => H x t (or_intror Hx)) t1 X E y Hy).
Qed.

Lemma pull_needs r : forall n p t, adjok (tadj t) p r -> snd (pull n (rkey r) p t) = Ok tt -> height r <= n.
Proof.
  induction r as [k cs IH] using rtree_ind'. intros n p t Ad E. destruct n as [|n]; [discriminate|]. cbn [pull rkey] in E.
  inversion Ad as [? ? ? Af Ac]; subst. rewrite Af in E. cbn [height]. apply le_n_S.
  assert (X : snd (each (fun y => pull n y (Some k)) (map rkey cs) t) = Ok tt) by (destruct (each _ (map rkey cs) t) as [t1 [[]|e]]; [reflexivity|discriminate]).
  apply list_max_le. apply Forall_forall. intros h Hh. apply in_map_iff in Hh as (c & <- & Hc).
  destruct (each_ok (fun y => pull n y (Some k)) (map rkey cs) (fun t' => tadj t' = tadj t)) with (t := t) (x := rkey c) as (t' & E' & O).
  - intros y t' _ Et. rewrite (tadj_skel _ _ (skel_pull n y (Some k) t')). exact Et.
  - reflexivity.
  - exact X.
  - apply in_map, Hc.
  - rewrite Forall_forall in IH, Ac. apply (IH c Hc n (Some k) t'); [rewrite E'; apply Ac, Hc|exact O].
Qed.

(** ** No IndexError in a message *)
Definition no_index {A} (x : res A) : Prop := x <> Err IndexError.
Lemma no_index_bind {A B} (x : res A) (f : A -> res B) : no_index x -> (forall a, no_index (f a)) -> no_index (let* a := x in f a).
Proof. destruct x; cbn; unfold no_index; [auto|]. intros H _ E. inversion E; subst. apply H. reflexivity. Qed.

Lemma no_index_mapM {A B} (f : A -> res B) l : (forall a, no_index (f a)) -> no_index (mapM f l).
Proof. intros H. induction l as [|x l IH]; cbn; [discriminate|]. apply no_index_bind; [apply H|]. intros y. apply no_index_bind; [exact IH|discriminate]. Qed.
Lemma no_index_foldM {A B} (f : B -> A -> res B) l : (forall b a, no_index (f b a)) -> forall b, no_index (foldM f l b).
Proof. intros H. induction l as [|x l IH]; intros b; cbn; [discriminate|]. apply no_index_bind; [apply H|]. intros y. apply IH. Qed.
Lemma no_index_py x l : no_index (py_index x l).
Proof. unfold py_index. destruct (index_of x l); discriminate. Qed.
Lemma no_index_get {A} k (d : dict A) : no_index (dget_err KeyError k d).
Proof. unfold dget_err. destruct (dget k d); discriminate. Qed.

Ltac ni := repeat first [ discriminate | apply no_index_py | apply no_index_get | apply no_index_foldM; intros | apply no_index_mapM; intros
  | apply no_index_bind; [|intros] | match goal with |- no_index (match ?x with _ => _ end) => destruct x end ].

Lemma no_index_marg f vs : no_index (marginalize f vs).
Proof. unfold marginalize. apply no_index_foldM. intros g v. unfold marginalize1. ni. Qed.
Lemma no_index_bshape : forall a c, no_index (bshape a c).
Proof. induction a as [|x a IH]; intros [|y c]; cbn; try discriminate. assert (X := IH c). destruct (bshape a c) as [z|e]; cbn; ni. all: exact X. Qed.
Lemma no_index_mul f g : no_index (fmul f g).
Proof. unfold fmul, fcombine, add_vals, transpose, zipb. ni; apply no_index_bshape. Qed.
Lemma no_index_div f g : no_index (fdiv f g).
Proof. unfold fdiv. destruct (subset _ _); [|discriminate]. apply no_index_bind; [unfold finvert; ni|]. intros i. apply no_index_mul. Qed.

Lemma no_index_send u v t : no_index (snd (send u v t)).
Proof.
  unfold send. match goal with |- no_index (snd (match ?x with _ => _ end)) => assert (X : no_index x); [|destruct x as [[new f]|e]; [discriminate|cbn; intros E; apply X; congruence]] end.
  apply no_index_bind; [ni|intros c]. apply no_index_bind; [ni|intros s]. apply no_index_bind; [apply no_index_marg|intros n].
  apply no_index_bind; [ni|intros d]. apply no_index_bind; [apply no_index_div|intros q]. apply no_index_bind; [apply no_index_mul|discriminate].
Qed.

Lemma no_index_each {A} (f : A -> jtree -> jtree * res unit) l : (forall x t, no_index (snd (f x t))) -> forall t, no_index (snd (each f l t)).
Proof.
  intros H. induction l as [|x l IH]; intros t; cbn [each]; [discriminate|]. assert (X := H x t). destruct (f x t) as [t1 [u|e]]; [apply IH|exact X].
Qed.
Lemma no_index_pull : forall n k p t, no_index (snd (pull n k p t)).
Proof.
  induction n as [|n IH]; intros k p t; cbn [pull]; [discriminate|].
  match goal with |- context [each ?f ?l t] => assert (X := no_index_each f l (fun x t => IH x (Some k) t) t); destruct (each f l t) as [t1 [u|e]] end; [|exact X].
  destruct p as [[|c p]|]; try discriminate. apply no_index_send.
Qed.
Lemma no_index_push : forall n k p t, no_index (snd (push n k p t)).
Proof.
  induction n as [|n IH]; intros k p t; cbn [push]; [discriminate|]. apply no_index_each. intros x t1. assert (X := no_index_send k x t1).
  destruct (send k x t1) as [t2 [u|e]]; [apply IH|exact X].
Qed.

(** ** What is left alone *)
Lemma valid_send u v t : tvalid (fst (send u v t)) = tvalid t.
Proof.
  unfold send. match goal with |- context [match ?x with Ok _ => _ | Err _ => _ end] => destruct x as [[new f]|e] end; [|reflexivity].
  cbn [fst]. unfold set_sfac, set_cfac. destruct (dget v (tnodes t)); cbn; destruct (eget u v (tedges t)); reflexivity.
Qed.
Lemma valid_each {A} (f : A -> jtree -> jtree * res unit) l : (forall x t, tvalid (fst (f x t)) = tvalid t) -> forall t, tvalid (fst (each f l t)) = tvalid t.
Proof.
  intros H. induction l as [|x l IH]; intros t; cbn [each]; [reflexivity|]. assert (X := H x t). destruct (f x t) as [t1 [u|e]]; cbn [fst] in *; [rewrite IH|]; exact X.
Qed.
Lemma valid_pull : forall n k p t, tvalid (fst (pull n k p t)) = tvalid t.
Proof.
  induction n as [|n IH]; intros k p t; cbn [pull]; [reflexivity|].
  match goal with |- context [each ?f ?l t] => assert (X := valid_each f l (fun x t => IH x (Some k) t) t); destruct (each f l t) as [t1 [u|e]] end; [|exact X].
  cbn [fst] in X. destruct p as [[|c p]|]; try exact X. rewrite valid_send. exact X.
Qed.
Lemma valid_push : forall n k p t, tvalid (fst (push n k p t)) = tvalid t.
Proof.
  induction n as [|n IH]; intros k p t; cbn [push]; [reflexivity|]. apply valid_each. intros x t1. assert (X := valid_send k x t1).
  destruct (send k x t1) as [t2 [u|e]]; cbn [fst] in *; [rewrite IH|]; exact X.
Qed.

Lemma skel_calc_within n t : skel (fst (calculate_messages_within n t)) = skel t.
Proof.
  unfold calculate_messages_within. destruct (dkeys (tnodes t)) as [|root rest]; [reflexivity|].
  assert (P := skel_pull n root None t). destruct (pull n root None t) as [t1 [u|e]]; cbn [fst] in P.
  - assert (Q := skel_push n root None t1). destruct (push n root None t1) as [t2 [u'|e]]; cbn [fst] in Q.
    + cbn. rewrite skel_valid. congruence.
    + destruct e; cbn; congruence.
  - destruct e; cbn; exact P.
Qed.

Section With.
Variable calc : jtree -> jtree * res unit.
Hypothesis CS : forall t, skel (fst (calc t)) = skel t.

Lemma skel_marginals_with t Q : skel (fst (tmarginals_with calc t Q)) = skel t.
Proof. unfold tmarginals_with. destruct (tvalid t); [reflexivity|]. assert (X := CS t). destruct (calc t) as [t' [u|e]]; exact X. Qed.
Lemma skel_old_with vs : forall t, skel (fst (old_marginals_with calc vs t)) = skel t.
Proof.
  induction vs as [|v vs IH]; intros t; cbn; [reflexivity|]. assert (X := skel_marginals_with t [v]). destruct (tmarginals_with calc t [v]) as [t1 [f|e]]; [|exact X].
  cbn in X. assert (Y := IH t1). destruct (old_marginals_with calc vs t1) as [t2 [d|e]]; cbn in *; congruence.
Qed.
Lemma skel_set_evidence_with b ev soft t : skel (fst (set_evidence_with calc b ev soft t)) = skel t.
Proof.
  unfold set_evidence_with. assert (R := skel_reset b t). destruct (reset_factors b t) as [t1 [u|e]]; [|exact R]. cbn in R.
  match goal with |- skel (fst (let (_, _) := ?x in _)) = _ => assert (X : skel (fst x) = skel t) end.
  { destruct soft; [|exact R]. assert (C := CS t1). destruct (calc t1) as [t' [u'|e]]; cbn in C; [|cbn; congruence].
    assert (O := skel_old_with (dkeys ev) t'). destruct (old_marginals_with calc (dkeys ev) t') as [t2 [d|e]]; cbn in O; [|cbn; congruence].
    assert (R2 := skel_reset b t2). destruct (reset_factors b t2) as [t3 [u2|e]]; cbn in *; congruence. }
  match goal with |- skel (fst (let (_, _) := ?x in _)) = _ => destruct x as [t2 [d|e]] end; [|exact X]. cbn in X.
  assert (E := skel_each (add_tree_evidence b d) ev t2 (fun x t _ => skel_add_ev b d x t)).
  destruct (each (add_tree_evidence b d) ev t2) as [t3 [u'|e]]; cbn in E; [rewrite CS|cbn]; congruence.
Qed.
End With.

(** Functions that pass messages in the same way. *)
Section Agree.
Variables calc calc' : jtree -> jtree * res unit.
Variable K : jtree -> Prop.
Hypothesis KS : forall t t', skel t' = skel t -> K t -> K t'.
Hypothesis CC : forall t, K t -> calc t = calc' t.
Hypothesis CS : forall t, skel (fst (calc t)) = skel t.

Lemma marginals_agree t Q : K t -> tmarginals_with calc t Q = tmarginals_with calc' t Q.
Proof. intros H. unfold tmarginals_with. rewrite (CC t H). reflexivity. Qed.
Lemma old_agree vs : forall t, K t -> old_marginals_with calc vs t = old_marginals_with calc' vs t.
Proof.
  induction vs as [|v vs IH]; intros t H; cbn; [reflexivity|]. rewrite <- (marginals_agree t [v] H). assert (X := skel_marginals_with calc CS t [v]).
  destruct (tmarginals_with calc t [v]) as [t1 [f|e]]; [|reflexivity]. rewrite IH; [reflexivity|]. apply (KS t t1 X H).
Qed.
Lemma set_evidence_agree b ev soft t : K t -> set_evidence_with calc b ev soft t = set_evidence_with calc' b ev soft t.
Proof.
  intros H. unfold set_evidence_with. assert (R := skel_reset b t). destruct (reset_factors b t) as [t1 [u|e]]; [|reflexivity]. cbn in R.
  assert (H1 : K t1) by (apply (KS t); assumption).
  assert (X : (if soft then match calc t1 with (t', Ok _) => match old_marginals_with calc (dkeys ev) t' with (t'', Ok d) => match reset_factors b t'' with (t3, Ok _) => (t3, Ok d) | (t3, Err e) => (t3, Err e) end | (t'', Err e) => (t'', Err e) end | (t', Err e) => (t', Err e) end else (t1, Ok []))
     = (if soft then match calc' t1 with (t', Ok _) => match old_marginals_with calc' (dkeys ev) t' with (t'', Ok d) => match reset_factors b t'' with (t3, Ok _) => (t3, Ok d) | (t3, Err e) => (t3, Err e) end | (t'', Err e) => (t'', Err e) end | (t', Err e) => (t', Err e) end else (t1, Ok (@nil (string * list Qc))))
     /\ skel (fst (if soft then match calc t1 with (t', Ok _) => match old_marginals_with calc (dkeys ev) t' with (t'', Ok d) => match reset_factors b t'' with (t3, Ok _) => (t3, Ok d) | (t3, Err e) => (t3, Err e) end | (t'', Err e) => (t'', Err e) end | (t', Err e) => (t', Err e) end else (t1, Ok []))) = skel t).
  { destruct soft; [|auto]. rewrite <- (CC t1 H1). assert (C := CS t1). destruct (calc t1) as [t' [u'|e]]; cbn in C; [|split; [reflexivity|cbn; congruence]].
    assert (H' : K t') by (apply (KS t1); assumption). rewrite <- (old_agree (dkeys ev) t' H').
    assert (O := skel_old_with calc CS (dkeys ev) t'). destruct (old_marginals_with calc (dkeys ev) t') as [t2 [d|e]]; cbn in O; [|split; [reflexivity|cbn; congruence]].
    assert (R2 := skel_reset b t2). split; [reflexivity|]. destruct (reset_factors b t2) as [t3 [u2|e]]; cbn in *; congruence. }
  destruct X as [X S]. rewrite <- X. clear X.
  match goal with |- (let (_, _) := ?x in _) = _ => destruct x as [t2 [d|e]] end; [|reflexivity]. cbn in S.
  assert (E := skel_each (add_tree_evidence b d) ev t2 (fun x t _ => skel_add_ev b d x t)).
  destruct (each (add_tree_evidence b d) ev t2) as [t3 [u'|e]]; [|reflexivity]. apply CC. apply (KS t); [cbn in E; congruence|exact H].
Qed.
End Agree.

Lemma with_messages t Q : tmarginals_with calculate_messages t Q = tmarginals t Q.
Proof. reflexivity. Qed.
Lemma with_old vs : forall t, old_marginals_with calculate_messages vs t = old_marginals vs t.
Proof. induction vs as [|v vs IH]; intros t; cbn; [reflexivity|]. rewrite with_messages. destruct (tmarginals t [v]) as [t1 [f|e]]; [rewrite IH|]; reflexivity. Qed.
Lemma with_evidence b ev soft t : set_evidence_with calculate_messages b ev soft t = set_evidence b ev soft t.
Proof.
  unfold set_evidence_with, set_evidence. destruct (reset_factors b t) as [t1 [u|e]]; [|reflexivity]. destruct soft; [|reflexivity].
  destruct (calculate_messages t1) as [t' [u'|e]]; [|reflexivity]. rewrite with_old. reflexivity.
Qed.

(** ** Depth and height *)
Lemma walk_height adj r : forall p l, adjok adj p r -> walk (fun x y => In y (neighbours adj x)) (rkey r) l -> NoDup (rkey r :: l) ->
  (forall q, p = Some q -> ~ In q l) -> length l < height r.
Proof.
  induction r as [k cs IH] using rtree_ind'. intros p l Ad W ND NP. destruct l as [|y l]; [cbn; lia|]. cbn [rkey walk] in *. destruct W as [Hy W].
  inversion Ad as [? ? ? Af Ac]; subst.
  assert (Hc : In y (map rkey cs)).
  { rewrite <- Af. apply filter_In. split; [exact Hy|]. destruct p as [q|]; [|reflexivity]. cbn. rewrite eqb_neq_s; [reflexivity|]. intros ->. apply (NP y eq_refl). now left. }
  apply in_map_iff in Hc as (c & <- & Hc). rewrite Forall_forall in IH, Ac. inversion ND as [|? ? Nk ND']; subst.
  assert (L := IH c Hc (Some k) l (Ac c Hc) W ND'). assert (H := height_child k cs c Hc). cbn [length].
  assert (length l < height c); [|lia]. apply L. intros q E. inversion E; subst. intros Hq. apply Nk. now right.
Qed.

Lemma height_walk adj r : forall p n, adjok adj p r -> NoDup (rkeys r) -> n < height r ->
  exists l, length l = n /\ walk (fun x y => In y (neighbours adj x)) (rkey r) l /\ NoDup (rkey r :: l) /\ incl l (rkeys r).
Proof.
  induction r as [k cs IH] using rtree_ind'. intros p n Ad ND H. destruct n as [|n].
  { exists []. split; [reflexivity|]. split; [exact I|]. split; [constructor; [tauto|constructor]|intros ? []]. }
  cbn [height] in H. destruct (max_child cs n) as (c & Hc & L); [lia|]. inversion Ad as [? ? ? Af Ac]; subst. rewrite Forall_forall in IH, Ac.
  cbn [rkeys] in ND. inversion ND as [|? ? Nk NDc]; subst.
  destruct (IH c Hc (Some k) n (Ac c Hc)) as (l & El & W & NDl & Il).
  { revert NDc Hc. clear. induction cs as [|d cs IH]; intros N H; [destruct H|]. cbn in N. destruct H as [<-|H]; [apply (NoDup_app_l _ _ N)|apply IH; [apply (NoDup_app_r _ _ N)|exact H]]. }
  { exact L. }
  assert (Ic : forall x, In x (rkey c :: l) -> In x (flat_map rkeys cs)).
  { intros x [<-|Hx]; apply in_flat_map; exists c; (split; [exact Hc|]); [apply rkey_in|apply Il, Hx]. }
  exists (rkey c :: l). cbn [rkey rkeys length walk]. split; [lia|]. split; [split; [|exact W]|split].
  - assert (X : In (rkey c) (map rkey cs)) by apply in_map, Hc. rewrite <- Af in X. apply filter_In in X. apply X.
  - constructor; [intros X; apply Nk, Ic, X|exact NDl].
  - intros x Hx. right. apply Ic, Hx.
Qed.

Lemma deep_height t r n : rooted t r -> (deep t n <-> n < height r).
Proof.
  intros R. destruct (rt_root _ _ R) as (rest & Er). split.
  - intros (root & rest' & l & E & ND & W & <-). unfold tree_keys in E. rewrite Er in E. inversion E; subst.
    apply (walk_height (tadj t) r None l (rt_adj _ _ R) W ND). discriminate.
  - intros H. destruct (height_walk (tadj t) r None n (rt_adj _ _ R) (rt_nodup _ _ R) H) as (l & El & W & ND & _). exists (rkey r), rest, l. auto.
Qed.

Lemma deep_skel t t' n : skel t = skel t' -> deep t n -> deep t' n.
Proof.
  intros S (root & rest & l & E & ND & W & L). exists root, rest, l. unfold tree_keys, tree_adj in *. rewrite <- (skel_keys _ _ S). rewrite <- (skel_adj _ _ S). auto.
Qed.

(** ** The two cases *)
Lemma height_size r : height r <= length (rkeys r).
Proof.
  induction r as [k cs IH] using rtree_ind'. cbn [height rkeys length]. apply le_n_S. apply list_max_le. apply Forall_forall. intros h Hh.
  apply in_map_iff in Hh as (c & <- & Hc). rewrite Forall_forall in IH. etransitivity; [apply IH, Hc|]. revert Hc. clear. induction cs as [|d cs IHc]; intros H; [destruct H|].
  cbn. rewrite app_length. destruct H as [->|H]; [lia|]. specialize (IHc H). lia.
Qed.

Lemma shallow_same t r n : rooted t r -> height r <= n -> calculate_messages_within n t = calculate_messages t.
Proof.
  intros R H. destruct (rt_root _ _ R) as (rest & Er). unfold calculate_messages_within, calculate_messages. rewrite Er.
  assert (Z := height_size r). assert (Y := rt_size _ _ R).
  rewrite (pull_same r n (S (length (tnodes t))) None t H ltac:(lia) (rt_adj _ _ R)). assert (Sk := skel_pull (S (length (tnodes t))) (rkey r) None t).
  destruct (pull (S (length (tnodes t))) (rkey r) None t) as [t1 [u|e]]; [|reflexivity]. cbn [fst] in Sk.
  rewrite (push_same r n (S (length (tnodes t))) None t1 H ltac:(lia)); [reflexivity|]. rewrite (skel_adj _ _ Sk). apply R.
Qed.

Lemma deep_fails t r n : rooted t r -> n < height r -> exists t' e, calculate_messages_within n t = (t', Err e) /\ tvalid t' = tvalid t.
Proof.
  intros R H. destruct (rt_root _ _ R) as (rest & Er). unfold calculate_messages_within. rewrite Er.
  assert (N := no_index_pull n (rkey r) None t). assert (V := valid_pull n (rkey r) None t). assert (P := pull_needs r n None t (rt_adj _ _ R)).
  destruct (pull n (rkey r) None t) as [t1 [[]|e]]; cbn [fst snd] in *; [specialize (P eq_refl); lia|].
  exists t1, e. split; [|exact V]. destruct e; try reflexivity. contradiction N; reflexivity.
Qed.

(** The exception is RecursionError if nothing else could be raised. *)
Lemma deep_recursion t r n t' : rooted t r -> n < height r -> calculate_messages t = (t', Ok tt) ->
  snd (calculate_messages_within n t) = Err RecursionError.
Proof.
  intros R H E. destruct (rt_root _ _ R) as (rest & Er). unfold calculate_messages_within, calculate_messages in *. rewrite Er in *.
  assert (Z := height_size r). assert (Y := rt_size _ _ R).
  assert (P := pull_needs r n None t (rt_adj _ _ R)). assert (M := pull_more n (S (length (tnodes t))) (rkey r) None t ltac:(lia)).
  assert (N := no_index_pull (S (length (tnodes t))) (rkey r) None t).
  destruct (pull n (rkey r) None t) as [t1 [[]|e]]; cbn [fst snd] in *; [specialize (P eq_refl); lia|].
  assert (X : e = RecursionError \/ e <> RecursionError) by (destruct e; (left; reflexivity) || (right; discriminate)). destruct X as [->|Ne]; [reflexivity|]. rewrite M in E, N by congruence. destruct e; cbn in *; try discriminate. contradiction N; reflexivity.
Qed.
End Messages.
