(** Conditions under which the hypotheses on the elimination order and the names hold. *)
From Coq Require Import Relations.
From Verif Require Import Base BaseFacts NDArray Factor FactorFacts Exact Spec SpecFacts Order OrderSpec OrderProof
  JoinTree HuginPure Checks TreeSpec JTJunction.

(** ** Names *)
Lemma app_split_s : forall a b s t, (a ++ s = b ++ t)%string -> (exists u, b = (a ++ u)%string) \/ (exists u, a = (b ++ u)%string).
Proof.
  induction a as [|x a IH]; intros b s t E; [left; exists b; reflexivity|].
  destruct b as [|y b]; [right; exists (String x a); reflexivity|].
  cbn in E. inversion E as [[E1 E2]]. destruct (IH _ _ _ E2) as [(u & ->)|(u & ->)]; [left|right]; exists u; reflexivity.
Qed.

Lemma app_s_nil a : (a ++ "")%string = a.
Proof. induction a; cbn; congruence. Qed.

Lemma app_s_inv : forall a s t, (a ++ s = a ++ t)%string -> s = t.
Proof. induction a; cbn; intros s t E; [exact E|]. inversion E. auto. Qed.

Lemma concat_cons x l : String.concat "" (x :: l) = (x ++ String.concat "" l)%string.
Proof. cbn. destruct l; [cbn; rewrite app_s_nil; reflexivity|reflexivity]. Qed.

Lemma prefix_free_decodable names : prefix_free names -> decodable names.
Proof.
  intros [N P] l. assert (EN : forall x l, In x names -> String.concat "" (x :: l) <> "").
  { intros x m Hx E. rewrite concat_cons in E. destruct x; [apply N, Hx|discriminate]. }
  induction l as [|x l IH]; intros m Il Im Nl Nm E.
  - destruct m as [|y m]; [reflexivity|]. exfalso. apply (EN y m); [apply Im; left; reflexivity|]. symmetry; exact E.
  - destruct m as [|y m]; [exfalso; apply (EN x l); [apply Il; left; reflexivity|exact E]|].
    rewrite !concat_cons in E. assert (Hx : In x names) by (apply Il; left; reflexivity). assert (Hy : In y names) by (apply Im; left; reflexivity).
    assert (x = y).
    { destruct (app_split_s _ _ _ _ E) as [(u & Eu)|(u & Eu)].
      - rewrite (P x y u Hx Hy Eu), app_s_nil in Eu. congruence.
      - rewrite (P y x u Hy Hx Eu), app_s_nil in Eu. congruence. }
    subst y. f_equal. apply app_s_inv in E. inversion Nl; inversion Nm; subst. apply IH; try assumption.
    + intros z Hz; apply Il; right; exact Hz. + intros z Hz; apply Im; right; exact Hz.
Qed.

(** ** Networks in which every node has at most one parent, with the default order *)
Lemma max_rank (rank : string -> nat) l : l <> [] -> exists w, In w l /\ forall u, In u l -> rank u <= rank w.
Proof.
  induction l as [|x l IH]; [congruence|]. intros _. destruct l as [|y l].
  - exists x. split; [left; reflexivity|]. intros u [<-|[]]. lia.
  - destruct IH as (w & Hw & M); [discriminate|]. destruct (le_lt_dec (rank x) (rank w)) as [H|H].
    + exists w. split; [right; exact Hw|]. intros u [<-|Hu]; [exact H|apply M, Hu].
    + exists x. split; [left; reflexivity|]. intros u [<-|Hu]; [lia|]. specialize (M u Hu). lia.
Qed.

Lemma all_same_length (l : list string) p : NoDup l -> (forall u, In u l -> u = p) -> length l <= 1.
Proof.
  intros ND H. destruct l as [|x [|y l]]; cbn; try lia. exfalso. inversion ND as [|? ? N _]; subst. apply N. left.
  rewrite (H y), (H x); cbn; auto.
Qed.

Section Tree.
Variable b : bn.
Variable rank : string -> nat.
Hypothesis WB : wf_bn b.
Hypothesis WG : wf_graph b.
Hypothesis EM : edges_match b.
Hypothesis SP : single_parent b.
Hypothesis RK : ranked b rank.

Lemma one_parent u u' v : In (u, v) (bedges b) -> In (u', v) (bedges b) -> u = u'.
Proof.
  assert (EM' := EM). red in EM'. rewrite !EM'. intros (n & Hn & En & Hu) (n' & Hn' & En' & Hu').
  assert (n = n').
  { assert (G1 := get_node_ok b WB n Hn). assert (G2 := get_node_ok b WB n' Hn'). rewrite En in G1. rewrite En' in G2. congruence. }
  subst n'.
  specialize (SP n Hn). destruct (dn_parents n) as [|p [|q l]]; cbn in *; try lia; try contradiction.
  destruct Hu as [<-|[]], Hu' as [<-|[]]. reflexivity.
Qed.

Lemma interacts_linked0 u v : interacts b u v -> linked0 b u v.
Proof.
  assert (EM' := EM). red in EM'. intros (N & n & Hn & Hu & Hv). unfold linked0. rewrite !EM'.
  destruct Hu as [<-|Hu], Hv as [<-|Hv]; [congruence|right|left|].
  - exists n. auto. - exists n. auto.
  - exfalso. specialize (SP n Hn). destruct (dn_parents n) as [|p [|q l]]; cbn in *; try lia; try contradiction.
    destruct Hu as [<-|[]], Hv as [<-|[]]. congruence.
Qed.

Lemma linked0_dec u v : {linked0 b u v} + {~ linked0 b u v}.
Proof.
  assert (D : forall a c : string * string, {a = c} + {a <> c}) by (intros; decide equality; apply string_dec).
  unfold linked0. destruct (in_dec D (u, v) (bedges b)); [left; auto|]. destruct (in_dec D (v, u) (bedges b)); [left; auto|]. right; tauto.
Qed.

Lemma linked0_names u v : linked0 b u v -> In u (bnames b) /\ In v (bnames b) /\ u <> v.
Proof. intros [H|H]; apply (wg_edges _ WG) in H; intuition congruence. Qed.

Section Greedy.
Variable r : list string.
Hypothesis PR : Permutation (bnames b) r.
Hypothesis GR : forall pre v post, r = pre ++ v :: post -> forall w, In w (v :: post) -> forall n m,
      degree_is b (rev pre) v n -> degree_is b (rev pre) w m -> n <= m.

Lemma r_nodup : NoDup r.
Proof. apply (Permutation_NoDup PR), WG. Qed.

Lemma degree_list pre v post : r = pre ++ v :: post ->
  (forall u w, ~ In u pre -> ~ In w pre -> (linked b (rev pre) u w <-> linked0 b u w)) ->
  forall w, In w (v :: post) -> degree_is b (rev pre) w (length (filter (fun u => if linked0_dec w u then true else false) (v :: post))).
Proof.
  intros E LK w Hw. assert (ND := r_nodup). rewrite E in ND. 
  exists (filter (fun u => if linked0_dec w u then true else false) (v :: post)).
  assert (Nw : forall u, In u (v :: post) -> ~ In u pre).
  { intros u Hu Hp. apply (NoDup_app_no _ _ u ND Hp Hu). }
  split; [apply NoDup_filter, (NoDup_app_r _ _ ND)|]. split; [reflexivity|].
  intros u. rewrite filter_In, <- in_rev. split.
  - intros [Hu Hl]. destruct (linked0_dec w u); [|discriminate]. split; [apply Nw, Hu|]. apply LK; auto.
  - intros [Nu Hl]. apply LK in Hl; [|apply Nw, Hw|exact Nu]. split.
    + assert (Hr : In u r) by (apply (Permutation_in u PR), (linked0_names _ _ Hl)). rewrite E in Hr. apply in_app_or in Hr as [Hr|Hr]; [contradiction|exact Hr].
    + destruct (linked0_dec w u); [reflexivity|contradiction].
Qed.

Lemma few pre v post : r = pre ++ v :: post ->
  (forall u w, ~ In u pre -> ~ In w pre -> (linked b (rev pre) u w <-> linked0 b u w)) ->
  forall x y, In x post -> In y post -> linked0 b v x -> linked0 b v y -> x = y.
Proof.
  intros E LK x y Hx Hy Lx Ly. destruct (max_rank rank (v :: post)) as (w & Hw & M); [discriminate|].
  assert (Dw := degree_list pre v post E LK w Hw). assert (Dv := degree_list pre v post E LK v (or_introl eq_refl)).
  assert (LE := GR pre v post E w Hw _ _ Dv Dw).
  assert (NDp : NoDup (v :: post)) by (assert (ND := r_nodup); rewrite E in ND; apply (NoDup_app_r _ _ ND)).
  assert (L1 : length (filter (fun u => if linked0_dec w u then true else false) (v :: post)) <= 1).
  { destruct (filter (fun u => if linked0_dec w u then true else false) (v :: post)) as [|p l] eqn:EF; [cbn; lia|]. rewrite <- EF.
    apply (all_same_length _ p); [apply NoDup_filter, NDp|].
    assert (UP : forall u, In u (filter (fun u => if linked0_dec w u then true else false) (v :: post)) -> In (u, w) (bedges b)).
    { intros u Hu. apply filter_In in Hu as [Hu Hl]. destruct (linked0_dec w u) as [[L|L]|]; [|exact L|discriminate].
      apply RK in L. specialize (M u Hu). lia. }
    intros u Hu. apply (one_parent u p w); apply UP; [exact Hu|]. rewrite EF. left; reflexivity. }
  destruct (string_dec x y) as [|N]; [assumption|]. exfalso.
  assert (L2 : 2 <= length (filter (fun u => if linked0_dec v u then true else false) (v :: post))).
  { assert (I : incl [x; y] (filter (fun u => if linked0_dec v u then true else false) (v :: post))).
    { intros z [<-|[<-|[]]]; apply filter_In; (split; [right; assumption|]); destruct (linked0_dec v _); congruence. }
    apply NoDup_incl_length in I; [exact I|]. constructor; [intros [H|[]]; congruence|constructor; [tauto|constructor]]. }
  lia.
Qed.

Lemma no_fill pre : forall post, r = pre ++ post -> forall u w, ~ In u pre -> ~ In w pre -> (linked b (rev pre) u w <-> linked0 b u w).
Proof.
  induction pre as [|v pre IH] using rev_ind; intros post E u w Nu Nw; [cbn; tauto|].
  rewrite <- app_assoc in E. cbn [app] in E.
  assert (Nu' : ~ In u pre) by (intros H; apply Nu, in_or_app; auto). assert (Nw' : ~ In w pre) by (intros H; apply Nw, in_or_app; auto).
  assert (Nuv : u <> v) by (intros ->; apply Nu, in_or_app; right; left; reflexivity).
  assert (Nwv : w <> v) by (intros ->; apply Nw, in_or_app; right; left; reflexivity).
  assert (Nv : ~ In v pre).
  { assert (ND := r_nodup). rewrite E in ND. intros H. apply (NoDup_app_no _ _ v ND H). left; reflexivity. }
  rewrite rev_unit. cbn [linked]. rewrite !(IH (v :: post) E) by assumption.
  split; [|auto]. intros [H|(H1 & H2 & H3)]; [exact H|]. exfalso. apply H3.
  assert (IN : forall z, linked0 b v z -> ~ In z pre -> z <> v -> In z post).
  { intros z Hl Nz Nzv. assert (Hr : In z r) by (apply (Permutation_in z PR), (linked0_names _ _ Hl)). rewrite E in Hr.
    apply in_app_or in Hr as [Hr|[Hr|Hr]]; congruence. }
  assert (H1' : linked0 b v u) by (destruct H1; [right|left]; assumption).
  apply (few pre v post E (IH (v :: post) E)); auto.
Qed.

Lemma greedy_perfect : perfect_order b r.
Proof.
  intros pre v post E x y Hx Hy Ix Iy N. exfalso. apply N.
  apply (few pre v post E); try assumption; try (apply interacts_linked0; assumption).
  apply no_fill with (post := v :: post). exact E.
Qed.
End Greedy.

Lemma tree_default_suits : bnodes b <> [] -> one_component b -> prefix_free (bnames b) ->
  exists o, order_or_default b None = Ok o /\ suits b o.
Proof.
  intros NE OC PF. destruct (min_degree_greedy b WG) as (o & E & P & G). exists o. split; [exact E|].
  apply perfect_suits; try assumption; [apply greedy_perfect; assumption|apply prefix_free_decodable, PF].
Qed.

Lemma tree_default_perfect o : order_or_default b None = Ok o -> perfect_order b o.
Proof. intros E. destruct (min_degree_greedy b WG) as (o' & E' & P & G). assert (o' = o) by (cbn in E; congruence). subst. apply greedy_perfect; assumption. Qed.
End Tree.

(** ** Decision procedures *)
Definition edges_matchb (b : bn) : bool :=
  forallb (fun e => existsb (fun n => String.eqb (dn_name n) (snd e) && mem (fst e) (map fst (dn_parents n))) (bnodes b)) (bedges b) &&
  forallb (fun n => forallb (fun u => existsb (fun e => String.eqb (fst e) u && String.eqb (snd e) (dn_name n)) (bedges b))
                            (map fst (dn_parents n))) (bnodes b).

Lemma edges_matchb_ok b : edges_matchb b = true -> edges_match b.
Proof.
  unfold edges_matchb. rewrite andb_true_iff, !forallb_forall. intros [H1 H2] u v. split.
  - intros H. apply H1 in H. apply existsb_exists in H as (n & Hn & H). apply andb_true_iff in H as [A B].
    apply String.eqb_eq in A. apply mem_In in B. cbn in *. eauto.
  - intros (n & Hn & <- & Hu). specialize (H2 n Hn). rewrite forallb_forall in H2. apply H2 in Hu.
    apply existsb_exists in Hu as ([x y] & He & H). apply andb_true_iff in H as [A B]. apply String.eqb_eq in A, B. cbn in *. subst. exact He.
Qed.

Definition interactsb (b : bn) (u v : string) : bool :=
  negb (String.eqb u v) && existsb (fun n => mem u (dn_name n :: map fst (dn_parents n)) && mem v (dn_name n :: map fst (dn_parents n))) (bnodes b).

Lemma interactsb_ok b u v : interactsb b u v = true <-> interacts b u v.
Proof.
  unfold interactsb, interacts. rewrite andb_true_iff, negb_true_iff, existsb_exists. rewrite String.eqb_neq.
  split; intros [A (n & Hn & H)]; (split; [exact A|]); exists n; (split; [exact Hn|]); [apply andb_true_iff in H as [H H']|destruct H as [H H']; apply andb_true_iff];
    (split; apply mem_In; assumption).
Qed.

Fixpoint perfectb (b : bn) (o : list string) : bool :=
  match o with
  | [] => true
  | v :: post => forallb (fun x => forallb (fun y => implb (interactsb b v x && interactsb b v y && negb (String.eqb x y)) (interactsb b x y)) post) post
                 && perfectb b post
  end.

Lemma perfectb_ok b o : perfectb b o = true -> perfect_order b o.
Proof.
  intros H pre v post E. assert (H' : perfectb b (v :: post) = true).
  { revert o H E. induction pre as [|w pre IH]; intros o H E; cbn in E; [subst; exact H|].
    subst o. cbn in H. apply andb_true_iff in H as [_ H]. eapply IH; [exact H|reflexivity]. }
  cbn [perfectb] in H'. apply andb_true_iff in H' as [H' _]. intros x y Hx Hy Ix Iy N.
  rewrite forallb_forall in H'. specialize (H' x Hx). rewrite forallb_forall in H'. specialize (H' y Hy).
  apply interactsb_ok in Ix, Iy. rewrite Ix, Iy in H'. apply String.eqb_neq in N. rewrite N in H'. cbn in H'. apply interactsb_ok, H'.
Qed.

(** Every name interacts with an earlier one. *)
Fixpoint chained (b : bn) (seen l : list string) : bool :=
  match l with
  | [] => true
  | v :: l' => (match seen with [] => true | _ => existsb (interactsb b v) seen end) && chained b (v :: seen) l'
  end.

Lemma chained_ok b l : chained b [] l = true -> (forall v, In v (bnames b) -> In v l) -> one_component b.
Proof.
  intros H C.
  assert (SY : forall u v, interacts b u v -> interacts b v u) by (intros u v (N & n & ? & ? & ?); split; [congruence|exists n; auto]).
  assert (RS : forall u v, clos_refl_trans string (interacts b) u v -> clos_refl_trans string (interacts b) v u).
  { intros u v R. induction R; [apply rt_step, SY; assumption|apply rt_refl|eapply rt_trans; eassumption]. }
  assert (G : forall l seen, chained b seen l = true -> 
    (forall u v, In u seen -> In v seen -> clos_refl_trans string (interacts b) u v) ->
    forall u v, In u (seen ++ l) -> In v (seen ++ l) -> clos_refl_trans string (interacts b) u v).
  { clear. intros l. assert (SY : forall u v, interacts b u v -> interacts b v u) by (intros u v (N & n & ? & ? & ?); split; [congruence|exists n; auto]).
    induction l as [|w l IH]; intros seen H S u v Hu Hv; [rewrite app_nil_r in *; auto|].
    cbn in H. apply andb_true_iff in H as [H1 H2]. apply (IH (w :: seen) H2).
    - destruct seen as [|s seen'].
      + intros x y [<-|[]] [<-|[]]. apply rt_refl.
      + apply existsb_exists in H1 as (z & Hz & I). apply interactsb_ok in I.
        intros x y [<-|Hx] [<-|Hy]; [apply rt_refl| | |apply S; assumption].
        * eapply rt_trans; [apply rt_step, I|]. apply S; assumption.
        * eapply rt_trans; [|apply rt_step, SY, I]. apply S; assumption.
    - apply in_app_or in Hu as [Hu|[Hu|Hu]]; [right; apply in_or_app; auto|left; exact Hu|right; apply in_or_app; auto].
    - apply in_app_or in Hv as [Hv|[Hv|Hv]]; [right; apply in_or_app; auto|left; exact Hv|right; apply in_or_app; auto]. }
  intros u v Hu Hv. apply (G l [] H); [intros ? ? []|apply C, Hu|apply C, Hv].
Qed.

Definition prefix_freeb (names : list string) : bool :=
  negb (mem "" names) && forallb (fun a => forallb (fun b => implb (String.prefix a b) (String.eqb a b)) names) names.

Lemma prefix_app a s : String.prefix a (a ++ s) = true.
Proof. induction a as [|x a IH]; cbn; [destruct s; reflexivity|]. destruct (Ascii.ascii_dec x x); [exact IH|congruence]. Qed.

Lemma prefix_freeb_ok names : prefix_freeb names = true -> prefix_free names.
Proof.
  unfold prefix_freeb. rewrite andb_true_iff, negb_true_iff, forallb_forall. intros [H1 H2].
  split; [intros H; apply mem_In in H; congruence|]. intros a b s Ha Hb E. specialize (H2 a Ha). rewrite forallb_forall in H2. specialize (H2 b Hb).
  subst b. rewrite prefix_app in H2. cbn in H2. apply String.eqb_eq in H2.
  apply (app_s_inv a). rewrite app_s_nil. congruence.
Qed.

Definition suitsb (b : bn) (o l : list string) : bool :=
  wf_bnb b && wf_graphb b && edges_matchb b && negb (eqb_ls (bnames b) []) && permb (bnames b) o && perfectb b o &&
  chained b [] l && subset (bnames b) l && prefix_freeb (bnames b).

Lemma suitsb_ok b o l : suitsb b o l = true -> suits b o.
Proof.
  unfold suitsb. rewrite !andb_true_iff. intros ((((((((H1 & H2) & H3) & H4) & H5) & H6) & H7) & H8) & H9).
  apply perfect_suits.
  - apply wf_bnb_ok, H1. - apply wf_graphb_ok, H2. - apply edges_matchb_ok, H3.
  - intros E. unfold bnames in H4. rewrite E in H4. discriminate.
  - apply permb_ok, H5. - apply perfectb_ok, H6. - apply (chained_ok b l H7). apply inclb_ok in H8. intros v; apply H8.
  - apply prefix_free_decodable, prefix_freeb_ok, H9.
Qed.
