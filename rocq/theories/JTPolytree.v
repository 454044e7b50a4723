(** Networks whose skeleton has no cycles: the default elimination order is perfect. *)
From Coq Require Import Relations.
From Verif Require Import Base BaseFacts NDArray Factor FactorFacts Exact Spec SpecFacts Order OrderSpec OrderProof
  JoinTree HuginPure Checks TreeSpec JTJunction JTDefault.

(** ** Forests have leaves *)
Section Forest.
Variable R : string -> string -> Prop.
Hypothesis R_dec : forall u v, {R u v} + {~ R u v}.
Hypothesis R_sym : forall u v, R u v -> R v u.
Hypothesis R_irr : forall u, ~ R u u.
Hypothesis NC : no_cycles R.

Definition leaf_in (S : list string) (k : string) : Prop :=
  In k S /\ forall q q', In q S -> In q' S -> R k q -> R k q' -> q = q'.

Lemma two_or_leaf S k : In k S -> leaf_in S k \/ exists q q', In q S /\ In q' S /\ R k q /\ R k q' /\ q <> q'.
Proof.
  intros Hk. destruct (filter (fun u => if R_dec k u then true else false) S) as [|q l] eqn:E.
  - left. split; [exact Hk|]. intros q q' Hq _ Rq _. exfalso.
    assert (F : In q []); [|exact F]. rewrite <- E. apply filter_In. split; [exact Hq|]. destruct (R_dec k q); congruence.
  - assert (Q : In q S /\ R k q).
    { assert (F : In q (filter (fun u => if R_dec k u then true else false) S)) by (rewrite E; left; reflexivity).
      apply filter_In in F as [F1 F2]. destruct (R_dec k q); [tauto|discriminate]. }
    destruct (existsb (fun u => negb (String.eqb u q)) l) eqn:X.
    + right. apply existsb_exists in X as (q' & Hq' & N). apply negb_true_iff, String.eqb_neq in N.
      assert (F : In q' (filter (fun u => if R_dec k u then true else false) S)) by (rewrite E; right; exact Hq').
      apply filter_In in F as [F1 F2]. destruct (R_dec k q') as [F3|]; [|discriminate].
      exists q, q'. intuition congruence.
    + left. split; [exact Hk|].
      assert (A : forall u, In u S -> R k u -> u = q).
      { intros u Hu Ru. assert (F : In u (q :: l)).
        { rewrite <- E. apply filter_In. split; [exact Hu|]. destruct (R_dec k u); congruence. }
        destruct F as [F|F]; [congruence|]. destruct (string_dec u q) as [|N]; [assumption|]. exfalso.
        assert (existsb (fun u => negb (String.eqb u q)) l = true); [|congruence].
        apply existsb_exists. exists u. split; [exact F|]. apply negb_true_iff, String.eqb_neq, N. }
      intros u u' Hu Hu' Ru Ru'. rewrite (A u), (A u'); auto.
Qed.

Lemma walk_app x l y l' : walk R x (l ++ y :: l') -> walk R x (l ++ [y]).
Proof. revert x. induction l as [|z l IH]; cbn; intros x H; [tauto|]. destruct H. auto. Qed.

Lemma last_app (l : list string) y d : last (l ++ [y]) d = y.
Proof. induction l as [|z l IH]; [reflexivity|]. cbn. destruct (l ++ [y]) eqn:E; [destruct l; discriminate|exact IH]. Qed.

Lemma long_walk S : S <> [] -> forall n, (exists k, leaf_in S k) \/
  exists x l, length l = n /\ NoDup (x :: l) /\ incl (x :: l) S /\ walk R x l.
Proof.
  intros NE. induction n as [|n [IH|(x & l & L & ND & I & W)]]; [|left; exact IH|].
  - right. destruct S as [|x S]; [congruence|]. exists x, []. cbn. repeat split; [constructor; [tauto|constructor]|].
    intros z [<-|[]]. left; reflexivity.
  - destruct (two_or_leaf S x) as [H|(q & q' & Hq & Hq' & Rq & Rq' & N)]; [apply I; left; reflexivity|left; eauto|]. right.
    assert (G : exists z, In z S /\ R x z /\ z <> hd x l).
    { destruct (string_dec q (hd x l)) as [E|E]; [exists q'|exists q]; intuition congruence. }
    destruct G as (z & Hz & Rz & Nz). destruct (in_dec string_dec z (x :: l)) as [Hin|Hin].
    + exfalso. destruct Hin as [<-|Hin]; [exact (R_irr _ Rz)|].
      apply in_split in Hin as (l1 & l2 & ->).
      destruct l1 as [|y l1]; [cbn in Nz; congruence|].
      apply (NC x ((y :: l1) ++ [z])).
      * change (y :: l1) with ([y] ++ l1) in *. apply NoDup_cons_iff in ND as [N1 N2]. constructor.
        -- intros H. apply N1. rewrite in_app_iff in *. cbn in *. tauto.
        -- clear - N2. replace ((([y] ++ l1) ++ z :: l2)) with ((([y] ++ l1) ++ [z]) ++ l2) in N2 by (rewrite <- !app_assoc; reflexivity).
           apply (NoDup_app_l _ _ N2).
      * rewrite app_length. cbn. lia.
      * apply (walk_app x (y :: l1) z l2 W).
      * rewrite last_app. apply R_sym, Rz.
    + exists z, (x :: l). split; [cbn; lia|]. split; [constructor; assumption|]. split; [intros w [<-|Hw]; auto|].
      split; [apply R_sym, Rz|exact W].
Qed.

Lemma forest_leaf S : S <> [] -> exists k, leaf_in S k.
Proof.
  intros NE. destruct (long_walk S NE (length S)) as [H|(x & l & L & ND & I & _)]; [exact H|].
  exfalso. apply NoDup_incl_length in I; [|exact ND]. cbn in I. lia.
Qed.
End Forest.

Lemma linked0_sym b u v : linked0 b u v -> linked0 b v u.
Proof. unfold linked0. tauto. Qed.

Section Poly.
Variable b : bn.
Hypothesis WB : wf_bn b.
Hypothesis WG : wf_graph b.
Hypothesis EM : edges_match b.
Hypothesis PT : polytree b.

Section Greedy.
Variable r : list string.
Hypothesis PR : Permutation (bnames b) r.
Hypothesis GR : forall pre v post, r = pre ++ v :: post -> forall w, In w (v :: post) -> forall n m,
      degree_is b (rev pre) v n -> degree_is b (rev pre) w m -> n <= m.

Lemma poly_few pre v post : r = pre ++ v :: post ->
  (forall u w, ~ In u pre -> ~ In w pre -> (linked b (rev pre) u w <-> linked0 b u w)) ->
  forall x y, In x post -> In y post -> linked0 b v x -> linked0 b v y -> x = y.
Proof.
  intros E LK x y Hx Hy Lx Ly.
  destruct (forest_leaf (linked0 b) (linked0_dec b) (linked0_sym b) (fun u H => proj2 (proj2 (linked0_names b WG u u H)) eq_refl) PT (v :: post))
    as (w & Hw & LW); [discriminate|].
  assert (Dw := degree_list b WG r PR pre v post E LK w Hw). assert (Dv := degree_list b WG r PR pre v post E LK v (or_introl eq_refl)).
  assert (LE := GR pre v post E w Hw _ _ Dv Dw).
  assert (NDp : NoDup (v :: post)) by (assert (ND := r_nodup b WG r PR); rewrite E in ND; apply (NoDup_app_r _ _ ND)).
  assert (L1 : length (filter (fun u => if linked0_dec b w u then true else false) (v :: post)) <= 1).
  { destruct (filter (fun u => if linked0_dec b w u then true else false) (v :: post)) as [|p l] eqn:EF; [cbn; lia|]. rewrite <- EF.
    apply (all_same_length _ p); [apply NoDup_filter, NDp|].
    assert (UP : forall u, In u (filter (fun u => if linked0_dec b w u then true else false) (v :: post)) -> In u (v :: post) /\ linked0 b w u).
    { intros u Hu. apply filter_In in Hu as [Hu Hl]. destruct (linked0_dec b w u); [auto|discriminate]. }
    intros u Hu. assert (Hp : In p (filter (fun u => if linked0_dec b w u then true else false) (v :: post))) by (rewrite EF; left; reflexivity).
    apply UP in Hu, Hp. apply LW; tauto. }
  destruct (string_dec x y) as [|N]; [assumption|]. exfalso.
  assert (L2 : 2 <= length (filter (fun u => if linked0_dec b v u then true else false) (v :: post))).
  { assert (I : incl [x; y] (filter (fun u => if linked0_dec b v u then true else false) (v :: post))).
    { intros z [<-|[<-|[]]]; apply filter_In; (split; [right; assumption|]); destruct (linked0_dec b v _); congruence. }
    apply NoDup_incl_length in I; [exact I|]. constructor; [intros [H|[]]; congruence|constructor; [tauto|constructor]]. }
  lia.
Qed.

Lemma poly_no_fill pre : forall post, r = pre ++ post -> forall u w, ~ In u pre -> ~ In w pre -> (linked b (rev pre) u w <-> linked0 b u w).
Proof.
  induction pre as [|v pre IH] using rev_ind; intros post E u w Nu Nw; [cbn; tauto|].
  rewrite <- app_assoc in E. cbn [app] in E.
  assert (Nu' : ~ In u pre) by (intros H; apply Nu, in_or_app; auto). assert (Nw' : ~ In w pre) by (intros H; apply Nw, in_or_app; auto).
  assert (Nuv : u <> v) by (intros ->; apply Nu, in_or_app; right; left; reflexivity).
  assert (Nwv : w <> v) by (intros ->; apply Nw, in_or_app; right; left; reflexivity).
  assert (Nv : ~ In v pre).
  { assert (ND := r_nodup b WG r PR). rewrite E in ND. intros H. apply (NoDup_app_no _ _ v ND H). left; reflexivity. }
  rewrite rev_unit. cbn [linked]. rewrite !(IH (v :: post) E) by assumption.
  split; [|auto]. intros [H|(H1 & H2 & H3)]; [exact H|]. exfalso. apply H3.
  assert (IN : forall z, linked0 b v z -> ~ In z pre -> z <> v -> In z post).
  { intros z Hl Nz Nzv. assert (Hr : In z r) by (apply (Permutation_in z PR), (linked0_names b WG _ _ Hl)). rewrite E in Hr.
    apply in_app_or in Hr as [Hr|[Hr|Hr]]; congruence. }
  assert (H1' : linked0 b v u) by (destruct H1; [right|left]; assumption).
  apply (poly_few pre v post E (IH (v :: post) E)); auto.
Qed.

Lemma few_left pre v post : r = pre ++ v :: post ->
  forall x y, In x post -> In y post -> linked0 b v x -> linked0 b v y -> x = y.
Proof. intros E. apply (poly_few pre v post E). apply poly_no_fill with (post := v :: post). exact E. Qed.

(** A later interaction partner is a neighbour, or shares the one remaining neighbour as a child. *)
Lemma partner pre v post x : r = pre ++ v :: post -> In x post -> interacts b v x ->
  linked0 b v x \/ exists c, In c (bnodes b) /\ In (dn_name c) post /\ In (v, dn_name c) (bedges b) /\ In x (map fst (dn_parents c)).
Proof.
  intros E Hx (N & n & Hn & Hv & Hx'). assert (EM' := EM). red in EM'.
  assert (PA : forall u, In u (map fst (dn_parents n)) -> In (u, dn_name n) (bedges b)) by (intros u Hu; apply EM'; exists n; auto).
  destruct Hv as [<-|Hv], Hx' as [<-|Hx']; [congruence|left; right; auto|left; left; auto|].
  right. exists n. split; [exact Hn|]. assert (Lv := PA v Hv). assert (Lx := PA x Hx').
  assert (IN : In (dn_name n) r) by (apply (Permutation_in _ PR), in_map, Hn). rewrite E in IN.
  apply in_app_or in IN as [IN|[IN|IN]].
  - exfalso. apply in_split in IN as (p1 & p2 & ->). rewrite <- app_assoc in E. cbn [app] in E.
    apply N. apply (few_left p1 (dn_name n) (p2 ++ v :: post) E).
    + apply in_or_app; right; left; reflexivity. + apply in_or_app; right; right; exact Hx. + right; exact Lv. + right; exact Lx.
  - exfalso. apply (wg_edges _ WG) in Lv. intuition congruence.
  - split; [exact IN|]. split; [exact Lv|exact Hx'].
Qed.

Lemma poly_perfect : perfect_order b r.
Proof.
  intros pre v post E x y Hx Hy Ix Iy N.
  destruct (partner pre v post x E Hx Ix) as [Lx|(c & Hc & Pc & Lc & Xc)], (partner pre v post y E Hy Iy) as [Ly|(d & Hd & Pd & Ld & Yd)].
  - exfalso. apply N. exact (few_left pre v post E x y Hx Hy Lx Ly).
  - split; [exact N|]. exists d. split; [exact Hd|]. split; [left|right; exact Yd].
    exact (few_left pre v post E _ _ Pd Hx (or_introl Ld) Lx).
  - split; [exact N|]. exists c. split; [exact Hc|]. split; [right; exact Xc|left].
    exact (few_left pre v post E _ _ Pc Hy (or_introl Lc) Ly).
  - split; [exact N|]. exists c. split; [exact Hc|]. split; [right; exact Xc|right].
    assert (EN := few_left pre v post E _ _ Pc Pd (or_introl Lc) (or_introl Ld)).
    assert (G1 := get_node_ok b WB c Hc). assert (G2 := get_node_ok b WB d Hd). rewrite EN in G1.
    assert (c = d) by congruence. subst d. exact Yd.
Qed.

(** What is left around a variable when it is its turn is within one family. *)
Lemma poly_family pre v post : r = pre ++ v :: post ->
  exists n, In n (bnodes b) /\ forall u, u = v \/ In u post /\ interacts b v u -> In u (dn_name n :: map fst (dn_parents n)).
Proof.
  intros E. assert (EM' := EM). red in EM'.
  assert (IV : In v (bnames b)) by (apply (Permutation_in _ (Permutation_sym PR)); rewrite E; apply in_or_app; right; left; reflexivity).
  assert (D : forall e e' : string * string, {e = e'} + {e <> e'}) by (intros; decide equality; apply string_dec).
  destruct (Exists_dec (fun w => In (v, w) (bedges b)) post (fun w => in_dec D (v, w) (bedges b))) as [X|X].
  - apply Exists_exists in X as (w & Hw & L). destruct (proj1 (EM' v w) L) as (n & Hn & En & Hv). exists n. split; [exact Hn|].
    intros u [->|[Hu I]]; [right; exact Hv|].
    destruct (partner pre v post u E Hu I) as [Lu|(c & Hc & Pc & Lc & Xc)].
    + left. rewrite En. exact (few_left pre v post E w u Hw Hu (or_introl L) Lu).
    + assert (EN := few_left pre v post E _ _ Pc Hw (or_introl Lc) (or_introl L)).
      assert (G1 := get_node_ok b WB c Hc). assert (G2 := get_node_ok b WB n Hn). rewrite EN, <- En in G1.
      assert (c = n) by congruence. subst c. right. exact Xc.
  - apply in_map_iff in IV as (n & <- & Hn). exists n. split; [exact Hn|].
    intros u [->|[Hu I]]; [left; reflexivity|]. right.
    destruct (partner pre (dn_name n) post u E Hu I) as [[L|L]|(c & Hc & Pc & Lc & Xc)].
    + exfalso. apply X, Exists_exists. eauto.
    + destruct (proj1 (EM' _ _) L) as (m & Hm & Em & Hp).
      assert (G1 := get_node_ok b WB m Hm). assert (G2 := get_node_ok b WB n Hn). rewrite Em in G1. assert (m = n) by congruence. subst m. exact Hp.
    + exfalso. apply X, Exists_exists. eauto.
Qed.
End Greedy.

Lemma poly_default_suits : bnodes b <> [] -> one_component b -> decodable (bnames b) ->
  exists o, order_or_default b None = Ok o /\ suits b o.
Proof.
  intros NE OC DN. destruct (min_degree_greedy b WG) as (o & E & P & G). exists o. split; [exact E|].
  apply perfect_suits; try assumption. apply poly_perfect; assumption.
Qed.
End Poly.

(** ** Decision procedure: nodes can be taken away one by one, each with at most
    one remaining neighbour. *)
Definition linked0b (b : bn) (u v : string) : bool :=
  existsb (fun e => (String.eqb (fst e) u && String.eqb (snd e) v) || (String.eqb (fst e) v && String.eqb (snd e) u)) (bedges b).

Lemma linked0b_ok b u v : linked0 b u v -> linked0b b u v = true.
Proof.
  unfold linked0b. intros [H|H]; apply existsb_exists; eexists; (split; [exact H|]); cbn; rewrite !String.eqb_refl; cbn; auto using orb_true_r.
Qed.

Fixpoint stripsb (b : bn) (o : list string) : bool :=
  match o with
  | [] => true
  | v :: post => Nat.leb (length (filter (linked0b b v) post)) 1 && stripsb b post
  end.

Lemma walk_neighbours (R : string -> string -> Prop) x l : (forall u v, R u v -> R v u) ->
  NoDup (x :: l) -> 2 <= length l -> walk R x l -> R (last l x) x ->
  forall z, In z (x :: l) -> exists q q', q <> q' /\ In q (x :: l) /\ In q' (x :: l) /\ R z q /\ R z q'.
Proof.
  intros SY ND L W C z Hz. destruct Hz as [<-|Hz].
  - destruct l as [|y [|y' l]]; cbn in L; try lia. cbn [walk] in W.
    exists y, (last (y' :: l) x). assert (IL : In (last (y' :: l) x) (y' :: l)).
    { clear. revert y'. induction l as [|w l IH]; intros y'; [left; reflexivity|]. right. apply (IH w). }
    split; [|split; [right; left; reflexivity|split; [right; right; exact IL|split; [tauto|apply SY, C]]]].
    intros E. rewrite <- E in IL. inversion ND as [|? ? _ N]; subst. inversion N; subst. contradiction.
  - apply in_split in Hz as (l1 & l2 & ->).
    assert (P : exists p, In p (x :: l1) /\ R p z).
    { clear - W. revert x W. induction l1 as [|w l1 IH]; intros x W; cbn in W; [exists x; split; [left; reflexivity|tauto]|].
      destruct W as [_ W]. destruct (IH w W) as (p & Hp & Rp). exists p. split; [right; exact Hp|exact Rp]. }
    destruct P as (p & Hp & Rp).
    assert (S : exists s, R z s /\ ((l2 = [] /\ s = x) \/ In s l2)).
    { destruct l2 as [|s l2].
      - exists x. split; [|auto]. replace z with (last (l1 ++ [z]) x); [exact C|apply last_app].
      - exists s. split; [|right; left; reflexivity]. clear - W. revert x W. induction l1 as [|w l1 IH]; intros x W; cbn in W; [tauto|].
        destruct W as [_ W]. exact (IH w W). }
    destruct S as (s & Rs & Hs). destruct Hs as [[-> ->]|Hs].
    + assert (N1 : p <> x \/ p = x) by (destruct (string_dec p x); auto). destruct N1 as [N1| -> ].
      * exists p, x. split; [exact N1|]. split; [destruct Hp as [<-|Hp]; [left; reflexivity|right; apply in_or_app; auto]|].
        split; [left; reflexivity|]. split; [apply SY, Rp|exact Rs].
      * (* the walk reaches z from x only as its first step; then l1 = [] unless NoDup fails *)
        destruct l1 as [|w l1]; [cbn in L; lia|].
        assert (P' : exists p, In p (w :: l1) /\ R p z).
        { cbn in W. destruct W as [_ W]. clear - W. revert w W. induction l1 as [|w' l1 IH]; intros w W; cbn in W; [exists w; split; [left; reflexivity|tauto]|].
          destruct W as [_ W]. destruct (IH w' W) as (p & Hp & Rp). exists p. split; [right; exact Hp|exact Rp]. }
        destruct P' as (p' & Hp' & Rp'). exists p', x.
        split; [intros ->; inversion ND as [|? ? N _]; subst; apply N; exact (in_or_app (w :: l1) [z] x (or_introl Hp'))|].
        split; [right; apply in_or_app; auto|]. split; [left; reflexivity|]. split; [apply SY, Rp'|exact Rs].
    + exists p, s. split.
      * intros ->. destruct Hp as [<-|Hp].
        -- inversion ND as [|? ? N _]; subst. apply N, in_or_app; right; right; exact Hs.
        -- inversion ND as [|? ? _ N]; subst. apply (NoDup_app_no _ _ s N Hp). right; exact Hs.
      * split; [destruct Hp as [<-|Hp]; [left; reflexivity|right; apply in_or_app; auto]|].
        split; [right; apply in_or_app; right; right; exact Hs|]. split; [apply SY, Rp|exact Rs].
Qed.

Lemma stripsb_ok b o : wf_graph b -> NoDup o -> stripsb b o = true -> incl (bnames b) o -> polytree b.
Proof.
  intros WG NDo H C x l ND L W CL.
  assert (AN := walk_neighbours _ x l (linked0_sym b) ND L W CL).
  assert (AL : forall z, In z (x :: l) -> In z o).
  { intros z Hz. destruct (AN z Hz) as (q & _ & _ & _ & _ & Rq & _). apply C, (linked0_names b WG _ _ Rq). }
  assert (Hx : In x (x :: l)) by (left; reflexivity). clear ND L W CL C.
  generalize dependent (x :: l). intros S AN AL Hx.
  revert NDo H AL. induction o as [|v o IH]; intros NDo H AL; [exact (AL x Hx)|].
  cbn in H. apply andb_true_iff in H as [H1 H2]. apply Nat.leb_le in H1. inversion NDo as [|? ? Nv NDo']; subst.
  destruct (in_dec string_dec v S) as [Hv|Hv].
  - destruct (AN v Hv) as (q & q' & N & Hq & Hq' & Rq & Rq').
    assert (Q : forall z, In z S -> linked0 b v z -> In z (filter (linked0b b v) o)).
    { intros z Hz Rz. destruct (AL z Hz) as [E|Ho]; [subst z; exfalso; apply (linked0_names b WG _ _ Rz); reflexivity|].
      apply filter_In. split; [exact Ho|apply linked0b_ok, Rz]. }
    assert (I : incl [q; q'] (filter (linked0b b v) o)) by (intros z [<-|[<-|[]]]; apply Q; assumption).
    apply NoDup_incl_length in I; [cbn in I; lia|]. constructor; [intros [E|[]]; congruence|constructor; [tauto|constructor]].
  - apply (IH NDo' H2). intros z Hz. destruct (AL z Hz) as [E|Ho]; [congruence|exact Ho].
Qed.
