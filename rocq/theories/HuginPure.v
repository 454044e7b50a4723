(** Message passing on rooted junction trees, as sums of products of functions. *)
From Verif Require Import Base BaseFacts SumCalc FactorFacts SpecFacts.

Inductive rtree := RT (k : string) (cs : list rtree).

Section Ind.
Variable P : rtree -> Prop.
Hypothesis H : forall k cs, Forall P cs -> P (RT k cs).
Fixpoint rtree_ind' (r : rtree) : P r :=
  match r with
  | RT k cs => H k cs ((fix all (l : list rtree) : Forall P l :=
                          match l with [] => Forall_nil _ | c :: l' => Forall_cons _ (rtree_ind' c) (all l') end) cs)
  end.
End Ind.

Definition rkey (r : rtree) : string := match r with RT k _ => k end.
Fixpoint rkeys (r : rtree) : list string := match r with RT k cs => k :: flat_map rkeys cs end.

Definition minus (l m : list string) : list string := filter (fun v => negb (mem v m)) l.

Lemma minus_In v l m : In v (minus l m) <-> In v l /\ ~ In v m.
Proof. unfold minus. rewrite filter_In, negb_true_iff, mem_nIn. tauto. Qed.

Lemma minus_NoDup l m : NoDup l -> NoDup (minus l m).
Proof. apply NoDup_filter. Qed.

Lemma minus_app l1 l2 m : minus (l1 ++ l2) m = minus l1 m ++ minus l2 m.
Proof. apply filter_app. Qed.

Lemma minus_none l m : incl l m -> minus l m = [].
Proof.
  induction l as [|x l IH]; intros I; [reflexivity|]. unfold minus. cbn.
  rewrite (proj2 (mem_In x m)) by (apply I; left; reflexivity). cbn. apply IH.
  intros y Hy; apply I; right; exact Hy.
Qed.

Lemma minus_all l m : (forall v, In v l -> ~ In v m) -> minus l m = l.
Proof.
  induction l as [|x l IH]; intros D; [reflexivity|]. unfold minus. cbn.
  rewrite (proj2 (mem_nIn x m)) by (apply D; left; reflexivity). cbn. f_equal. apply IH.
  intros y Hy; apply D; right; exact Hy.
Qed.

Section Pure.
Variable card : string -> nat.
(** Variables of the cliques and of the separator towards the parent. *)
Variables cv sv : string -> list string.

Definition priv (k : string) : list string := minus (cv k) (sv k).
Fixpoint allp (r : rtree) : list string := match r with RT k cs => priv k ++ flat_map allp cs end.

(** Rooted junction trees: separators are in both cliques, and every variable
    has one topmost clique (running intersection). *)
Inductive rjt : rtree -> Prop :=
| RJ k cs : NoDup (cv k) -> incl (sv k) (cv k) -> Forall rjt cs ->
    Forall (fun c => incl (sv (rkey c)) (cv k)) cs ->
    NoDup (priv k ++ flat_map allp cs) ->
    (forall v, In v (sv k) -> ~ In v (priv k ++ flat_map allp cs)) ->
    rjt (RT k cs).

Variable psi : string -> asg -> Qc.
Hypothesis psi_deps : forall k, deps (cv k) (psi k).

Fixpoint msg (r : rtree) : asg -> Qc :=
  match r with
  | RT k cs => sum_over card (priv k) (fun a => psi k a * qprod (map (fun c => msg c a) cs))%Qc
  end.
Definition hat (r : rtree) : asg -> Qc :=
  match r with RT k cs => fun a => (psi k a * qprod (map (fun c => msg c a) cs))%Qc end.
Fixpoint tprod (r : rtree) : asg -> Qc :=
  match r with RT k cs => fun a => (psi k a * qprod (map (fun c => tprod c a) cs))%Qc end.

Lemma msg_hat r : msg r = sum_over card (priv (rkey r)) (hat r).
Proof. destruct r; reflexivity. Qed.

Lemma deps_mult S F G : deps S F -> deps S G -> deps S (fun a => F a * G a)%Qc.
Proof. intros HF HG a b' E. rewrite (HF a b' E), (HG a b' E). reflexivity. Qed.

Lemma deps_sum_over S vs F : deps S F -> deps (minus S vs) (sum_over card vs F).
Proof.
  intros D a a' E. apply (sum_over_deps card S vs F D). intros v Hv N. apply E, minus_In. auto.
Qed.

(** Sums over disjoint groups of variables distribute over a product. *)
Lemma sum_prod_split {A} (cs : list A) (al : A -> list string) (B : A -> asg -> Qc) :
  forall X G a, NoDup (flat_map al cs) -> deps X G ->
  (forall c, In c cs -> deps (X ++ al c) (B c)) -> (forall v, In v X -> ~ In v (flat_map al cs)) ->
  sum_over card (flat_map al cs) (fun a => G a * qprod (map (fun c => B c a) cs))%Qc a =
  (G a * qprod (map (fun c => sum_over card (al c) (B c) a) cs))%Qc.
Proof.
  induction cs as [|c cs IH]; intros X G a ND DG DB DX; [reflexivity|].
  cbn [flat_map map qprod] in *. rewrite sum_over_app.
  assert (NDr : NoDup (flat_map al cs)).
  { clear -ND. induction (al c) as [|x l IHl]; cbn in ND; [exact ND|]. inversion ND; auto. }
  assert (DJ : forall v, In v (al c) -> ~ In v (flat_map al cs)).
  { clear -ND. induction (al c) as [|x l IHl]; cbn in ND; intros v Hv; [destruct Hv|].
    inversion ND as [|? ? N1 N2]; subst. destruct Hv as [->|Hv].
    - intros H. apply N1, in_or_app. right; exact H. - apply IHl; assumption. }
  assert (DBc : deps (X ++ al c) (B c)) by (apply DB; left; reflexivity).
  rewrite (sum_over_ext card _ _
     (fun a => (G a * B c a) * qprod (map (fun c => sum_over card (al c) (B c) a) cs))%Qc).
  2:{ intros a'. rewrite <- (IH (X ++ al c) (fun a => G a * B c a)%Qc a').
      - apply sum_over_ext. intros. ring.
      - exact NDr.
      - apply deps_mult; [|exact DBc]. eapply deps_incl; [|exact DG]. apply incl_appl, incl_refl.
      - intros c' Hc'. eapply deps_incl; [|apply (DB c'); right; exact Hc'].
        apply incl_app; [apply incl_appl, incl_appl, incl_refl|apply incl_appr, incl_refl].
      - intros v Hv H. apply in_app_or in Hv as [Hv|Hv]; [|exact (DJ v Hv H)].
        apply (DX v Hv), in_or_app. right; exact H. }
  rewrite (sum_over_mult_r card (al c) X).
  - rewrite (sum_over_mult_l card (al c) X); [ring|exact DG|].
    intros v Hv H. apply (DX v Hv), in_or_app. left; exact H.
  - apply (qprod_map_deps X (fun c a => sum_over card (al c) (B c) a)).
    intros c' Hc'. eapply deps_incl; [|apply deps_sum_over, (DB c'); right; exact Hc'].
    intros v Hv. apply minus_In in Hv as [Hv N]. apply in_app_or in Hv as [Hv|Hv]; tauto.
  - intros v Hv H. apply (DX v Hv), in_or_app. left; exact H.
Qed.

Lemma rjt_inv k cs : rjt (RT k cs) -> NoDup (cv k) /\ incl (sv k) (cv k) /\ Forall rjt cs /\
  Forall (fun c => incl (sv (rkey c)) (cv k)) cs /\ NoDup (priv k ++ flat_map allp cs) /\
  (forall v, In v (sv k) -> ~ In v (priv k ++ flat_map allp cs)).
Proof. intros J. inversion J; subst. auto 10. Qed.

Lemma cv_split k v : In v (cv k) -> In v (sv k) \/ In v (priv k).
Proof. intros Hv. destruct (In_dec_s v (sv k)); [auto|]. right. apply minus_In. auto. Qed.

Lemma NoDup_app_l {A} (l m : list A) : NoDup (l ++ m) -> NoDup l.
Proof.
  induction l as [|x l IH]; cbn; intros ND; [constructor|]. inversion ND as [|? ? N1 N2]; subst.
  constructor; [|auto]. intros H'. apply N1, in_or_app. auto.
Qed.
Lemma NoDup_app_r {A} (l m : list A) : NoDup (l ++ m) -> NoDup m.
Proof. induction l; cbn; intros ND; [exact ND|]. inversion ND; auto. Qed.
Lemma NoDup_app_no {A} (l m : list A) x : NoDup (l ++ m) -> In x l -> ~ In x m.
Proof.
  induction l as [|y l IH]; cbn; intros ND Hx H2; [destruct Hx|]. inversion ND as [|? ? N1 N2]; subst.
  destruct Hx as [->|H1]; [apply N1, in_or_app; auto|]. exact (IH N2 H1 H2).
Qed.

(** The variables of a clique do not occur privately below it. *)
Lemma cv_not_below k cs v : rjt (RT k cs) -> In v (cv k) -> ~ In v (flat_map allp cs).
Proof.
  intros J Hv Hb. apply rjt_inv in J as (_ & _ & _ & _ & ND & DJ). destruct (cv_split k v Hv) as [Hs|Hp].
  - apply (DJ v Hs), in_or_app. auto.
  - exact (NoDup_app_no _ _ _ ND Hp Hb).
Qed.

Lemma below_NoDup k cs : rjt (RT k cs) -> NoDup (flat_map allp cs).
Proof. intros J. apply rjt_inv in J as (_ & _ & _ & _ & ND & _). eapply NoDup_app_r, ND. Qed.

Lemma tprod_deps r : rjt r -> deps (sv (rkey r) ++ allp r) (tprod r).
Proof.
  induction r as [k cs IH] using rtree_ind'. intros J. assert (J0 := J).
  apply rjt_inv in J0 as (_ & _ & Js & Is & _ & _). cbn [tprod rkey allp].
  apply deps_mult.
  - eapply deps_incl; [|apply psi_deps]. intros v Hv. destruct (cv_split k v Hv) as [H|H];
      apply in_or_app; [auto|right; apply in_or_app; auto].
  - apply (qprod_map_deps _ (fun c a => tprod c a)). intros c Hc.
    rewrite Forall_forall in IH, Js, Is.
    eapply deps_incl; [|apply IH; auto]. apply incl_app.
    + intros v Hv. apply (Is c Hc) in Hv. destruct (cv_split k v Hv) as [H|H];
        apply in_or_app; [auto|right; apply in_or_app; auto].
    + intros v Hv. apply in_or_app; right. apply in_or_app; right. apply in_flat_map. eauto.
Qed.

Lemma msg_sum r : rjt r -> forall a, msg r a = sum_over card (allp r) (tprod r) a.
Proof.
  induction r as [k cs IH] using rtree_ind'. intros J a. assert (J0 := J).
  apply rjt_inv in J0 as (_ & _ & Js & Is & _ & _). rewrite Forall_forall in IH, Js, Is.
  cbn [msg allp tprod]. rewrite sum_over_app. apply sum_over_ext. intros a'.
  rewrite (sum_prod_split cs allp tprod (cv k)).
  - f_equal. apply qprod_map_ext. intros c Hc. apply IH; auto.
  - eapply below_NoDup, J.
  - apply psi_deps.
  - intros c Hc. eapply deps_incl; [|apply tprod_deps; auto]. apply incl_app.
    + intros v Hv. apply in_or_app; left. exact (Is c Hc v Hv).
    + apply incl_appr, incl_refl.
  - intros v Hv. eapply cv_not_below; eassumption.
Qed.

Lemma msg_deps r : rjt r -> deps (sv (rkey r)) (msg r).
Proof.
  intros J a a' E. rewrite !msg_sum by exact J. apply (sum_over_deps card _ _ _ (tprod_deps r J)).
  intros v Hv N. apply E. apply in_app_or in Hv as [Hv|Hv]; tauto.
Qed.

Lemma hat_deps k cs : rjt (RT k cs) -> deps (cv k) (hat (RT k cs)).
Proof.
  intros J. apply rjt_inv in J as (_ & _ & Js & Is & _ & _). rewrite Forall_forall in Js, Is.
  cbn [hat]. apply deps_mult; [apply psi_deps|].
  apply (qprod_map_deps _ (fun c a => msg c a)). intros c Hc.
  eapply deps_incl; [apply (Is c Hc)|apply msg_deps; auto].
Qed.

(** ** Downward: the function [R] stands for the rest of the tree. *)

Definition V (r : rtree) : list string := match r with RT k cs => cv k ++ flat_map allp cs end.
Definition mg (R : asg -> Qc) (r : rtree) (X : list string) : asg -> Qc :=
  sum_over card (minus (V r) X) (fun a => R a * tprod r a)%Qc.

Lemma V_NoDup r : rjt r -> NoDup (V r).
Proof.
  destruct r as [k cs]. intros J. assert (J0 := J). apply rjt_inv in J0 as (Nc & _). cbn [V].
  assert (N := below_NoDup _ _ J). assert (D := fun v => cv_not_below k cs v J).
  clear J. induction Nc as [|x l N1 N2 IH]; cbn; [exact N|]. constructor.
  - intros H. apply in_app_or in H as [H|H]; [tauto|]. apply (D x); [left; reflexivity|exact H].
  - apply IH. intros v Hv. apply D. right; exact Hv.
Qed.

Lemma V_alt r v : rjt r -> In v (V r) <-> In v (sv (rkey r)) \/ In v (allp r).
Proof.
  destruct r as [k cs]. intros J. apply rjt_inv in J as (_ & I & _). cbn [V rkey allp]. split; intros H.
  - apply in_app_or in H as [H|H].
    + destruct (cv_split k v H); [auto|]. right. apply in_or_app; auto.
    + right. apply in_or_app; auto.
  - destruct H as [H|H]; [apply in_or_app; left; apply I, H|].
    apply in_app_or in H as [H|H]; apply in_or_app; [left|right; exact H].
    apply minus_In in H. tauto.
Qed.

(** At the node itself. *)
Lemma mg_node R k cs : rjt (RT k cs) -> deps (sv k) R -> forall a,
  mg R (RT k cs) (cv k) a = (R a * hat (RT k cs) a)%Qc.
Proof.
  intros J DR a. assert (J0 := J). apply rjt_inv in J0 as (Nc & I & Js & Is & ND & DJ).
  rewrite Forall_forall in Js, Is. unfold mg.
  assert (E : minus (V (RT k cs)) (cv k) = flat_map allp cs).
  { cbn [V]. rewrite minus_app, (minus_none (cv k)) by apply incl_refl. cbn. apply minus_all.
    intros v H1 H2. exact (cv_not_below k cs v J H2 H1). }
  rewrite E. cbn [tprod hat].
  rewrite (sum_over_ext card _ _ (fun a => (R a * psi k a) * qprod (map (fun c => tprod c a) cs))%Qc) by (intros; ring).
  rewrite (sum_prod_split cs allp tprod (cv k)).
  - rewrite <- Qcmult_assoc. f_equal. f_equal. apply qprod_map_ext. intros c Hc. symmetry. apply msg_sum; auto.
  - eapply below_NoDup, J.
  - apply deps_mult; [|apply psi_deps]. eapply deps_incl; eassumption.
  - intros c Hc. eapply deps_incl; [|apply tprod_deps; auto]. apply incl_app.
    + intros v Hv. apply in_or_app; left. exact (Is c Hc v Hv).
    + apply incl_appr, incl_refl.
  - intros v Hv. eapply cv_not_below; eassumption.
Qed.

Lemma deps_ext' S F : deps S F -> ext F. Proof. apply deps_ext. Qed.

Lemma local_deps R r : rjt r -> deps (sv (rkey r)) R -> deps (V r) (fun a => R a * tprod r a)%Qc.
Proof.
  intros J DR. apply deps_mult.
  - eapply deps_incl; [|exact DR]. intros v Hv. apply V_alt; auto.
  - eapply deps_incl; [|apply tprod_deps, J]. intros v Hv. apply V_alt; [exact J|]. apply in_app_or in Hv. tauto.
Qed.

(** Marginalising in two steps. *)
Lemma mg_mg R r X Y : rjt r -> deps (sv (rkey r)) R -> incl Y X -> NoDup X -> incl X (V r) -> forall a,
  sum_over card (minus X Y) (mg R r X) a = mg R r Y a.
Proof.
  intros J DR I NX IX a. unfold mg. rewrite <- sum_over_app. apply sum_over_perm.
  - eapply deps_ext', local_deps; eassumption.
  - apply NoDup_Permutation.
    + apply NoDup_app_disj.
      * apply minus_NoDup, NX.
      * apply minus_NoDup, V_NoDup, J.
      * intros v H1 H2. apply minus_In in H1, H2. tauto.
    + apply minus_NoDup, V_NoDup, J.
    + intros v. rewrite in_app_iff, !minus_In. split; [intuition|].
      intros [H1 H2]. destruct (In_dec_s v X); auto.
Qed.

(** The outside function of a child. *)
Definition outside (R : asg -> Qc) (k : string) (l1 : list rtree) (c : rtree) (l2 : list rtree) : asg -> Qc :=
  sum_over card (minus (cv k) (sv (rkey c)))
    (fun a => R a * psi k a * qprod (map (fun d => msg d a) (l1 ++ l2)))%Qc.

Lemma outside_deps R k l1 c l2 : rjt (RT k (l1 ++ c :: l2)) -> deps (sv k) R ->
  deps (sv (rkey c)) (outside R k l1 c l2).
Proof.
  intros J DR. apply rjt_inv in J as (Nc & I & Js & Is & ND & DJ). rewrite Forall_forall in Js, Is.
  unfold outside. eapply deps_incl; [|apply deps_sum_over].
  2:{ apply deps_mult; [apply deps_mult; [|apply psi_deps]|].
      - eapply deps_incl; eassumption.
      - apply (qprod_map_deps (cv k) (fun d a => msg d a)). intros d Hd.
        assert (Hd' : In d (l1 ++ c :: l2)) by (apply in_app_or in Hd as [?|?]; apply in_or_app; cbn; auto).
        eapply deps_incl; [apply (Is d Hd')|apply msg_deps; auto]. }
  intros v Hv. apply minus_In in Hv as [H1 H2]. destruct (In_dec_s v (sv (rkey c))); [assumption|].
  exfalso. apply H2, minus_In. auto.
Qed.

(** What the parent sends to the child. *)
Lemma parent_message R k l1 c l2 : rjt (RT k (l1 ++ c :: l2)) -> deps (sv k) R -> forall a,
  sum_over card (minus (cv k) (sv (rkey c))) (fun a => R a * hat (RT k (l1 ++ c :: l2)) a)%Qc a =
  (msg c a * outside R k l1 c l2 a)%Qc.
Proof.
  intros J DR a. assert (J0 := J). apply rjt_inv in J0 as (Nc & I & Js & Is & ND & DJ). rewrite Forall_forall in Js, Is.
  assert (Hc : In c (l1 ++ c :: l2)) by (apply in_elt).
  unfold outside. rewrite <- (sum_over_mult_l card _ (sv (rkey c))).
  - apply sum_over_ext. intros a'. cbn [hat]. rewrite !map_app, !qprod_app. cbn [map qprod]. ring.
  - apply msg_deps; auto.
  - intros v Hv H. apply minus_In in H. tauto.
Qed.

Lemma flat_map_perm {A B} (f : A -> list B) l1 c l2 :
  Permutation (flat_map f (l1 ++ c :: l2)) (flat_map f (l1 ++ l2) ++ f c).
Proof.
  rewrite !flat_map_app. cbn. rewrite <- app_assoc. apply Permutation_app_head. apply Permutation_app_comm.
Qed.

(** Restricting the parent's function to the child's variables. *)
Lemma local_child R k l1 c l2 : rjt (RT k (l1 ++ c :: l2)) -> deps (sv k) R -> forall a,
  sum_over card (minus (V (RT k (l1 ++ c :: l2))) (V c)) (fun a => R a * tprod (RT k (l1 ++ c :: l2)) a)%Qc a =
  (outside R k l1 c l2 a * tprod c a)%Qc.
Proof.
  intros J DR a. assert (J0 := J). apply rjt_inv in J0 as (Nc & I & Js & Is & ND & DJ). rewrite Forall_forall in Js, Is.
  assert (Hc : In c (l1 ++ c :: l2)) by (apply in_elt).
  assert (Jc := Js c Hc). assert (NB := below_NoDup _ _ J).
  assert (NB' : NoDup (flat_map allp (l1 ++ l2) ++ allp c)) by (eapply Permutation_NoDup; [apply flat_map_perm|exact NB]).
  assert (ND' : NoDup (flat_map allp (l1 ++ l2))) by (eapply NoDup_app_l, NB').
  assert (CB : forall v, In v (cv k) -> ~ In v (flat_map allp (l1 ++ l2)) /\ ~ In v (allp c)).
  { intros v Hv. assert (N := cv_not_below _ _ v J Hv).
    split; intros H; apply N; (eapply Permutation_in; [symmetry; apply flat_map_perm|]); apply in_or_app; auto. }
  rewrite (sum_over_perm card _ (minus (cv k) (sv (rkey c)) ++ flat_map allp (l1 ++ l2))).
  - rewrite sum_over_app.
    rewrite (sum_over_ext card _ _ (fun a => (R a * psi k a * qprod (map (fun d => msg d a) (l1 ++ l2))) * tprod c a)%Qc).
    + rewrite (sum_over_mult_r card _ (sv (rkey c) ++ allp c)).
      * reflexivity.
      * apply tprod_deps, Jc.
      * intros v Hv H. apply minus_In in H as [H1 H2]. apply in_app_or in Hv as [Hv|Hv]; [tauto|].
        apply (CB v H1), Hv.
    + intros a'. cbn [tprod].
      rewrite (sum_over_ext card _ _ (fun a => (R a * psi k a * tprod c a) * qprod (map (fun d => tprod d a) (l1 ++ l2)))%Qc).
      2:{ intros a''. rewrite !map_app, !qprod_app. cbn [map qprod]. ring. }
      rewrite (sum_prod_split (l1 ++ l2) allp tprod (cv k ++ allp c)).
      * rewrite (qprod_map_ext (fun d => msg d a') (fun d => sum_over card (allp d) (tprod d) a') (l1 ++ l2)); [ring|].
        intros d Hd. apply msg_sum, Js. apply in_app_or in Hd as [?|?]; apply in_or_app; cbn; auto.
      * exact ND'.
      * apply deps_mult; [apply deps_mult|].
        -- eapply deps_incl; [|exact DR]. intros v Hv; apply in_or_app; left; apply I, Hv.
        -- eapply deps_incl; [|apply psi_deps]. apply incl_appl, incl_refl.
        -- eapply deps_incl; [|apply tprod_deps, Jc]. apply incl_app; [|apply incl_appr, incl_refl].
           intros v Hv. apply in_or_app; left. exact (Is c Hc v Hv).
      * intros d Hd. assert (Hd' : In d (l1 ++ c :: l2)) by (apply in_app_or in Hd as [?|?]; apply in_or_app; cbn; auto).
        eapply deps_incl; [|apply tprod_deps, Js, Hd']. apply incl_app.
        -- intros v Hv. apply in_or_app; left. apply in_or_app; left. exact (Is d Hd' v Hv).
        -- apply incl_appr, incl_refl.
      * intros v Hv H. apply in_app_or in Hv as [Hv|Hv]; [exact (proj1 (CB v Hv) H)|].
        exact (NoDup_app_no _ _ _ NB' H Hv).
  - eapply deps_ext', local_deps; [exact J|exact DR].
  - apply NoDup_Permutation.
    + apply minus_NoDup, V_NoDup, J.
    + apply NoDup_app_disj; [apply minus_NoDup, Nc|exact ND'|].
      intros v H1 H2. apply minus_In in H1 as [H1 _]. exact (proj1 (CB v H1) H2).
    + intros v. rewrite in_app_iff, !minus_In, (V_alt c v Jc). cbn [V]. rewrite in_app_iff.
      rewrite (Permutation_in' (eq_refl v) (flat_map_perm allp l1 c l2)), in_app_iff.
      split.
      * intros [[H|[H|H]] N]; [left|right|]; tauto.
      * intros [[H1 H2]|H].
        -- split; [auto|]. intros [H|H]; [tauto|]. exact (proj2 (CB v H1) H).
        -- split; [auto|]. intros [H'|H'].
           ++ apply (Is c Hc) in H'. exact (proj1 (CB v H') H).
           ++ exact (NoDup_app_no _ _ _ NB' H H').
Qed.

Lemma V_child k cs c : rjt (RT k cs) -> In c cs -> incl (V c) (V (RT k cs)).
Proof.
  intros J Hc v Hv. apply rjt_inv in J as (Nc & I & Js & Is & ND & DJ). rewrite Forall_forall in Js, Is.
  apply V_alt in Hv; [|auto]. cbn [V]. apply in_or_app. destruct Hv as [Hv|Hv].
  - left. exact (Is c Hc v Hv).
  - right. apply in_flat_map. eauto.
Qed.

Lemma mg_child R k l1 c l2 X : rjt (RT k (l1 ++ c :: l2)) -> deps (sv k) R -> incl X (V c) -> forall a,
  mg (outside R k l1 c l2) c X a = mg R (RT k (l1 ++ c :: l2)) X a.
Proof.
  intros J DR IX a. assert (J0 := J). apply rjt_inv in J0 as (Nc & I & Js & Is & ND & DJ). rewrite Forall_forall in Js.
  assert (Hc : In c (l1 ++ c :: l2)) by (apply in_elt). assert (Jc := Js c Hc).
  unfold mg at 1. rewrite (sum_over_ext card _ _ _ a (fun a' => eq_sym (local_child R k l1 c l2 J DR a'))).
  change (sum_over card (minus (V c) X) (mg R (RT k (l1 ++ c :: l2)) (V c)) a = mg R (RT k (l1 ++ c :: l2)) X a).
  apply mg_mg; auto.
  - apply V_NoDup, Jc. - eapply V_child; [exact J|exact Hc].
Qed.

(** ** Non-negativity: where a message is zero, so is the clique. *)
Variable U : list string.
Hypothesis cv_U : forall k, incl (cv k) U.
Hypothesis psi_nonneg : forall k a, inrange card U a -> (0 <= psi k a)%Qc.

Lemma inrange_sum vs a b' : incl vs U -> inrange card U a -> inrange card vs b' ->
  (forall v, ~ In v vs -> b' v = a v) -> inrange card U b'.
Proof.
  intros I Ra Rb E v Hv. destruct (In_dec_s v vs) as [H|H]; [apply Rb, H|]. rewrite E by exact H. apply Ra, Hv.
Qed.

Lemma msg_nonneg r : forall a, inrange card U a -> (0 <= msg r a)%Qc.
Proof.
  induction r as [k cs IH] using rtree_ind'. intros a Ra. cbn [msg].
  apply sum_over_nonneg. intros b' Rb E.
  assert (R' : inrange card U b').
  { eapply inrange_sum; [|exact Ra|exact Rb|exact E]. intros v Hv. apply minus_In in Hv as [Hv _]. eapply cv_U, Hv. }
  apply Qcmult_nonneg; [apply psi_nonneg, R'|]. apply qprod_nonneg. apply Forall_forall.
  intros x Hx. apply in_map_iff in Hx as (c & <- & Hc). rewrite Forall_forall in IH. apply IH; auto.
Qed.

Lemma hat_nonneg r : forall a, inrange card U a -> (0 <= hat r a)%Qc.
Proof.
  destruct r as [k cs]. intros a Ra. cbn [hat]. apply Qcmult_nonneg; [apply psi_nonneg, Ra|].
  apply qprod_nonneg. apply Forall_forall. intros x Hx. apply in_map_iff in Hx as (c & <- & Hc). apply msg_nonneg, Ra.
Qed.

Lemma hat_zero r : rjt r -> forall a, inrange card U a -> msg r a = 0%Qc -> hat r a = 0%Qc.
Proof.
  destruct r as [k cs]. intros J a Ra Z. assert (DH := hat_deps k cs J).
  apply rjt_inv in J as (Nc & _). rewrite msg_hat in Z. cbn [rkey] in Z.
  eapply (sum_over_zero_terms card (priv k) (hat (RT k cs))).
  - eapply deps_ext', DH.
  - apply minus_NoDup, Nc.
  - intros b' Rb E. apply hat_nonneg. eapply inrange_sum; [|exact Ra|exact Rb|exact E].
    intros v Hv. apply minus_In in Hv as [Hv _]. eapply cv_U, Hv.
  - exact Z.
  - intros v Hv. apply Ra. apply minus_In in Hv as [Hv _]. eapply cv_U, Hv.
  - reflexivity.
Qed.

End Pure.
