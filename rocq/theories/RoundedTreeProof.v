(** The relative error of message passing in rounded arithmetic. *)
From Verif Require Import Base BaseFacts NDArray NDArrayFacts SumCalc Factor FactorFacts Exact Order Spec SpecFacts VEProof VEProof2
  JoinTree HuginPure Hugin JTProof JTProof2 TreeSpec Rounded RoundedSpec RoundedProof RoundedTree.

(** ** The algorithms over exact operations are those of JoinTree.v *)
Lemma each_same {A} (f g : A -> jtree -> jtree * res unit) l t : (forall x t, f x t = g x t) -> each f l t = each g l t.
Proof. intros H. revert t. induction l as [|x l IH]; intros t; cbn; [reflexivity|]. rewrite H. destruct (g x t) as [t' [u|e]]; auto. Qed.

Section Same.
Context {SO : SetOrder}.
Lemma pull_same fuel : forall k p t, pull_by fmul marginalize1 finvert fuel k p t = pull fuel k p t.
Proof.
  induction fuel as [|n IH]; intros k p t; [reflexivity|]. cbn [pull_by pull].
  rewrite (each_same (fun x => pull_by fmul marginalize1 finvert n x (Some k)) (fun x => pull n x (Some k))); [reflexivity|]. intros; apply IH.
Qed.
Lemma push_same fuel : forall k p t, push_by fmul marginalize1 finvert fuel k p t = push fuel k p t.
Proof.
  induction fuel as [|n IH]; intros k p t; [reflexivity|]. cbn [push_by push]. apply each_same. intros x t0.
  change (send_by fmul marginalize1 finvert k x t0) with (send k x t0). destruct (send k x t0) as [t' [u|e]]; [apply IH|reflexivity].
Qed.
Lemma assign_factor_same f l : assign_factor_by fmul f l = assign_factor f l.
Proof. induction l as [|[k c] l IH]; cbn; [reflexivity|]. rewrite IH. reflexivity. Qed.
Lemma assign_evidence_same v f l : assign_evidence_by fmul v f l = assign_evidence v f l.
Proof. induction l as [|[k c] l IH]; cbn; [reflexivity|]. rewrite IH. reflexivity. Qed.
Lemma assign_factors_same fs t : assign_factors_by fmul fs t = assign_factors fs t.
Proof. unfold assign_factors_by, assign_factors. rewrite (foldM_same _ _ _ (fun l f => assign_factor f l)); [reflexivity|]. intros; apply assign_factor_same. Qed.
Lemma calculate_same t : calculate_messages_by fmul marginalize1 finvert t = calculate_messages t.
Proof.
  unfold calculate_messages_by, calculate_messages. destruct (dkeys (tnodes t)) as [|k ks]; [reflexivity|]. rewrite pull_same. destruct (pull _ _ _ t) as [t1 [u|e]]; [|reflexivity].
  rewrite push_same. reflexivity.
Qed.
Lemma reset_same b t : reset_factors_by fmul b t = reset_factors b t.
Proof. unfold reset_factors_by, reset_factors. rewrite assign_factors_same. reflexivity. Qed.

Theorem tree_by_exact :
  (forall b o, create_jointree_by fmul b o = create_jointree b o) /\
  (forall b t, reset_factors_by fmul b t = reset_factors b t) /\
  (forall b ev t, set_evidence_by fmul marginalize1 finvert b ev t = set_evidence b ev false t) /\
  (forall t, calculate_messages_by fmul marginalize1 finvert t = calculate_messages t) /\
  (forall t Q, tmarginals_by fmul marginalize1 finvert normalize t Q = tmarginals t Q).
Proof.
  split; [|split; [apply reset_same|split; [|split; [apply calculate_same|]]]].
  - intros b o. unfold create_jointree_by, create_jointree. destruct (order_or_default b o); cbn [rbind]; [|reflexivity].
    destruct (cluster_seq _ _); cbn [rbind]; [|reflexivity]. destruct (prune _); cbn [rbind]; [|reflexivity]. apply assign_factors_same.
  - intros b ev t. unfold set_evidence_by, set_evidence. rewrite reset_same. destruct (reset_factors b t) as [t1 [u|e]]; [|reflexivity].
    rewrite (each_same (add_tree_evidence_by fmul b) (add_tree_evidence b [])).
    + destruct (each _ ev t1) as [t2 [u2|e]]; [apply calculate_same|reflexivity].
    + intros x t0. unfold add_tree_evidence_by, add_tree_evidence. cbn [dget]. destruct (get_node b (fst x)); cbn [rbind]; [|reflexivity].
      destruct (as_evidence _ _ _ _); cbn [rbind]; [|reflexivity]. rewrite assign_evidence_same. reflexivity.
  - intros t Q. unfold tmarginals_by, tmarginals. destruct (tvalid t); [reflexivity|]. rewrite calculate_same. reflexivity.
Qed.
End Same.

(** ** The calls keep the shape of the tree, whatever the arithmetic *)
Section Shape.
Context {SO : SetOrder}.
Variables (mul : factor -> factor -> res factor) (marg : factor -> string -> res factor) (inv : factor -> res factor) (norm : factor -> factor).

Lemma send_by_skel u v t : skel (fst (send_by mul marg inv u v t)) = skel t /\ tvalid (fst (send_by mul marg inv u v t)) = tvalid t.
Proof.
  unfold send_by. cbv zeta. match goal with |- context [match ?m with Ok _ => _ | Err _ => _ end] => destruct m as [[new f]|e] end; [|split; reflexivity].
  cbn [fst]. split; [rewrite skel_set_sfac, skel_set_cfac; reflexivity|]. unfold set_sfac, set_cfac. destruct (dget v (tnodes t)); cbn; destruct (eget u v (tedges t)); reflexivity.
Qed.

Lemma each_keeps {A} (P : jtree -> Prop) (f : A -> jtree -> jtree * res unit) l : (forall x t, P t -> P (fst (f x t))) -> forall t, P t -> P (fst (each f l t)).
Proof.
  intros H. induction l as [|x l IH]; intros t Ht; cbn; [exact Ht|]. specialize (H x t Ht). destruct (f x t) as [t' [u|e]]; cbn in *; [apply IH, H|exact H].
Qed.

Definition like (t0 t : jtree) : Prop := skel t = skel t0 /\ tvalid t = tvalid t0.
Lemma send_by_like t0 u v t : like t0 t -> like t0 (fst (send_by mul marg inv u v t)).
Proof. intros [A B]. destruct (send_by_skel u v t) as [C D]. split; congruence. Qed.
Lemma pull_by_like t0 fuel : forall k p t, like t0 t -> like t0 (fst (pull_by mul marg inv fuel k p t)).
Proof.
  induction fuel as [|n IH]; intros k p t L; cbn [pull_by]; [exact L|].
  assert (E := each_keeps (like t0) (fun x => pull_by mul marg inv n x (Some k)) (filter (fun x => negb (is_parent p x)) (neighbours (tadj t) k)) (fun x t => IH x (Some k) t) t L).
  destruct (each _ _ t) as [t' [u|e]]; cbn in E |- *; [|exact E]. destruct p as [[|]|]; [exact E| |exact E]. apply send_by_like, E.
Qed.
Lemma push_by_like t0 fuel : forall k p t, like t0 t -> like t0 (fst (push_by mul marg inv fuel k p t)).
Proof.
  induction fuel as [|n IH]; intros k p t L; cbn [push_by]; [exact L|]. apply each_keeps; [|exact L]. intros x t1 L1. assert (S1 := send_by_like t0 k x t1 L1).
  destruct (send_by _ _ _ k x t1) as [t' [u|e]]; cbn in S1 |- *; [apply IH, S1|exact S1].
Qed.
Lemma calculate_by_skel t : skel (fst (calculate_messages_by mul marg inv t)) = skel t.
Proof.
  unfold calculate_messages_by. destruct (dkeys (tnodes t)) as [|k ks]; [reflexivity|]. cbv zeta.
  assert (L1 := pull_by_like t (S (length (tnodes t))) k None t (conj eq_refl eq_refl)).
  destruct (pull_by _ _ _ _ _ _ t) as [t1 [u|e]]; cbn [fst] in L1.
  - assert (L2 := push_by_like t (S (length (tnodes t))) k None t1 L1). destruct (push_by _ _ _ _ _ _ t1) as [t2 [u2|e]]; cbn [fst] in L2.
    + cbn [fst]. rewrite skel_valid. apply L2. + destruct e; apply L2.
  - destruct e; apply L1.
Qed.
Lemma assign_factor_by_vars f l l' : assign_factor_by mul f l = Ok l' -> map (fun p => (fst p, cvars (snd p))) l' = map (fun p => (fst p, cvars (snd p))) l.
Proof.
  revert l'. induction l as [|[k c] l IH]; intros l' E; cbn in E; [inversion E; reflexivity|]. destruct (subset _ _).
  - destruct (mul (cfac c) f) as [g|]; cbn in E; [|discriminate]. inversion E; subst. reflexivity.
  - destruct (assign_factor_by mul f l) as [r|] eqn:R; cbn in E; [|discriminate]. inversion E; subst. cbn. f_equal. apply IH. reflexivity.
Qed.
Lemma assign_evidence_by_vars v f l l' : assign_evidence_by mul v f l = Ok l' -> map (fun p => (fst p, cvars (snd p))) l' = map (fun p => (fst p, cvars (snd p))) l.
Proof.
  revert l'. induction l as [|[k c] l IH]; intros l' E; cbn in E; [inversion E; reflexivity|]. destruct (mem _ _).
  - destruct (mul (cfac c) f) as [g|]; cbn in E; [|discriminate]. inversion E; subst. reflexivity.
  - destruct (assign_evidence_by mul v f l) as [r|] eqn:R; cbn in E; [|discriminate]. inversion E; subst. cbn. f_equal. apply IH. reflexivity.
Qed.
Lemma skel_of_vars t ns : map (fun p => (fst p, cvars (snd p))) ns = map (fun p => (fst p, cvars (snd p))) (tnodes t) ->
  skel (mkT ns (tadj t) (tedges t) (tvalid t)) = skel t.
Proof.
  intros E. unfold skel, clear_factors, set_valid; cbn. f_equal. apply (f_equal (map (fun p => (fst p, mkC (snd p) (trivial 1%Qc))))) in E. rewrite !map_map in E. exact E.
Qed.
Lemma assign_factors_by_skel fs t t' : assign_factors_by mul fs t = Ok t' -> skel t' = skel t /\ tvalid t' = tvalid t.
Proof.
  unfold assign_factors_by. intros E.
  assert (H : forall l l', foldM (fun l f => assign_factor_by mul f l) fs l = Ok l' -> map (fun p => (fst p, cvars (snd p))) l' = map (fun p => (fst p, cvars (snd p))) l).
  { clear. induction fs as [|f fs IH]; intros l l' E; cbn in E; [inversion E; reflexivity|]. destruct (assign_factor_by mul f l) as [l1|] eqn:A; cbn in E; [|discriminate].
    rewrite (IH _ _ E). eapply assign_factor_by_vars, A. }
  destruct (foldM _ fs (tnodes t)) as [ns|] eqn:F; cbn in E; [|discriminate]. inversion E; subst. split; [|reflexivity]. apply skel_of_vars, (H _ _ F).
Qed.
Lemma reset_by_skel b t : skel (fst (reset_factors_by mul b t)) = skel t.
Proof.
  unfold reset_factors_by. assert (C : skel (clear_factors t) = skel t).
  { unfold skel, clear_factors, set_valid; cbn. rewrite !map_map. reflexivity. }
  destruct (assign_factors_by mul _ _) as [t'|] eqn:E; cbn [fst]; [|exact C]. rewrite skel_valid. rewrite (proj1 (assign_factors_by_skel _ _ _ E)). exact C.
Qed.
Lemma add_evidence_by_skel b p t : skel (fst (add_tree_evidence_by mul b p t)) = skel t.
Proof.
  unfold add_tree_evidence_by. cbv zeta. destruct (get_node b (fst p)) as [n|]; cbn [rbind fst]; [|reflexivity]. destruct (as_evidence _ _ _ _) as [ef|]; cbn [rbind fst]; [|reflexivity].
  destruct (assign_evidence_by mul _ _ _) as [ns|] eqn:E; cbn [fst]; [|reflexivity]. apply skel_of_vars. eapply assign_evidence_by_vars, E.
Qed.
Lemma set_evidence_by_skel b ev t : skel (fst (set_evidence_by mul marg inv b ev t)) = skel t.
Proof.
  unfold set_evidence_by. assert (R := reset_by_skel b t). destruct (reset_factors_by mul b t) as [t1 [u|e]]; cbn [fst] in R |- *; [|exact R].
  assert (E := each_keeps (fun x => skel x = skel t) (add_tree_evidence_by mul b) ev (fun p t0 H => eq_trans (add_evidence_by_skel b p t0) H) t1 R).
  destruct (each _ ev t1) as [t2 [u2|e]]; cbn [fst] in E |- *; [|exact E]. rewrite calculate_by_skel. exact E.
Qed.
Lemma tmarginals_by_skel t Q : skel (fst (tmarginals_by mul marg inv norm t Q)) = skel t.
Proof.
  unfold tmarginals_by. assert (C := calculate_by_skel t). destruct (tvalid t); [reflexivity|]. destruct (calculate_messages_by mul marg inv t) as [t' [u|e]]; exact C.
Qed.
End Shape.

(** ** Counting rounding errors in a tree *)
Section Trees.
Context {RD : Rounding} {AD : Adding} {SO : SetOrder}.
Variable b : bn.
Notation dom := (values_of b).
Notation rsend := (send_by rmul rmarg rinvert).
Notation rpull := (pull_by rmul rmarg rinvert).
Notation rpush := (push_by rmul rmarg rinvert).
Notation W := (sumn (sizes b (bnames b))).

Lemma near_inv k f f' h : near dom k f f' -> finvert f = Ok h -> exists h', rinvert f' = Ok h' /\ near dom (k + 1) h h'.
Proof.
  intros N E. assert (WF := nr_wf _ _ _ _ N). destruct N as [_ O V P].
  assert (Z : forall x x', close k x x' -> qeqb x' 0%Qc = qeqb x 0%Qc).
  { intros x x' C. assert (PP := close_pos _ _ _ C). destruct C as (A & B & _). destruct (qeqb x 0%Qc) eqn:X.
    - apply qeqb_true in X. subst x. apply qeqb_true. destruct (Qc_dec x' 0) as [[D|D]|D]; [destruct (Qclt_not_le _ _ D B)|apply PP in D; destruct (Qc_lt_irrefl _ D)|exact D].
    - apply qeqb_false in X. apply qeqb_false. intros ->. assert (Y : (0 < x)%Qc) by (apply Qc_nonneg_neq0_pos; assumption). apply PP in Y. destruct (Qc_lt_irrefl _ Y). }
  assert (I : forall x x', close k x x' -> x <> 0%Qc -> close (k + 1) (/ x) (rnd (/ x'))).
  { intros x x' C NZ. assert (Y : (0 < x)%Qc) by (apply Qc_nonneg_neq0_pos; [apply C|exact NZ]). assert (C2 := close_inv _ _ _ C Y).
    eapply close_trans; [exact C2|]. apply close_rnd, C2. }
  unfold finvert in E. unfold rinvert. rewrite O. destruct P as [PS PD]. destruct (vorder f) as [|v vs] eqn:VO.
  - assert (EX : existsb (fun x => qeqb x 0%Qc) (data (pot f')) = existsb (fun x => qeqb x 0%Qc) (data (pot f))).
    { clear - PD Z. induction PD as [|x x' l l' C D IH]; cbn; [reflexivity|]. rewrite (Z _ _ C), IH. reflexivity. }
    rewrite EX. destruct (existsb _ (data (pot f))) eqn:X; [discriminate|]. inversion E; subst h. eexists; split; [reflexivity|]. split; cbn; [|reflexivity|exact V|].
    + rewrite <- VO. apply (wf_amap dom), WF.
    + split; [exact PS|]. cbn. clear - PD I X. induction PD as [|x x' l l' C D IH]; cbn in *; [constructor|]. apply orb_false_iff in X as [X1 X2]. constructor; [|apply IH, X2].
      apply I; [exact C|apply qeqb_false, X1].
  - inversion E; subst h. eexists; split; [reflexivity|]. split; cbn; [|reflexivity|exact V|].
    + rewrite <- VO. apply (wf_amap dom), WF.
    + split; [exact PS|]. cbn. clear - PD I Z. induction PD as [|x x' l l' C D IH]; cbn in *; [constructor|]. constructor; [|apply IH].
      rewrite (Z _ _ C). destruct (qeqb x 0%Qc) eqn:X; [apply close_refl, Qcle_refl|]. apply I; [exact C|apply qeqb_false, X].
Qed.

Lemma near_keys k f f' : near dom k f f' -> fvals f' = fvals f. Proof. intros N. apply N. Qed.

Lemma near_div j k f f' g g' h : near dom j f f' -> near dom k g g' -> fdiv f g = Ok h ->
  exists h', div_by rmul rinvert f' g' = Ok h' /\ near dom (j + k + 2) h h'.
Proof.
  intros N M. unfold fdiv, div_by. rewrite (near_keys _ _ _ N), (near_keys _ _ _ M). destruct (subset _ _); [|discriminate]. intros E.
  destruct (finvert g) as [i|] eqn:EI; cbn [rbind] in E; [|discriminate]. destruct (near_inv _ _ _ _ M EI) as (i' & EI' & NI). rewrite EI'. cbn [rbind].
  destruct (near_mul dom _ _ _ _ _ _ _ N NI E) as (h' & E' & NH). exists h'. split; [exact E'|]. eapply near_mono; [|exact NH]. lia.
Qed.

Lemma sumn_app l l' : sumn (l ++ l') = sumn l + sumn l'.
Proof. unfold sumn. induction l as [|x l IH]; cbn; lia. Qed.

Lemma sizes_bound vs : NoDup vs -> sumn (sizes b vs) <= W.
Proof.
  intros ND. assert (H : sumn (sizes b vs) = sumn (sizes b (filter (fun v => mem v (bnames b)) vs))).
  { clear ND. induction vs as [|v vs IH]; [reflexivity|]. cbn [filter]. destruct (mem v (bnames b)) eqn:M; cbn [sizes map sumn fold_right] in *.
    - f_equal. exact IH.
    - unfold sumn, sizes in IH. rewrite IH. replace (length (values_of b v)) with 0; [reflexivity|]. unfold values_of. destruct (find _ (bnodes b)) as [n|] eqn:F; [|reflexivity].
      apply find_some in F as [F1 F2]. apply String.eqb_eq in F2. apply mem_nIn in M. exfalso. apply M. unfold bnames. apply in_map_iff. exists n. split; [congruence|exact F1]. }
  rewrite H. assert (ND2 : NoDup (filter (fun v => mem v (bnames b)) vs)) by (apply NoDup_filter, ND).
  assert (I : incl (filter (fun v => mem v (bnames b)) vs) (bnames b)) by (intros v Hv; apply filter_In in Hv as [_ Hv]; apply mem_In, Hv).
  revert ND2 I. generalize (filter (fun v => mem v (bnames b)) vs) as l. generalize (bnames b) as m. clear. intros m l. revert m.
  induction l as [|v l IH]; intros m ND I; [cbn; lia|]. inversion ND; subst. destruct (in_split v m (I v (or_introl eq_refl))) as (m1 & m2 & ->).
  assert (IH' : sumn (sizes b l) <= sumn (sizes b (m1 ++ m2))).
  { apply IH; [assumption|]. intros x Hx. assert (Hx' := I x (or_intror Hx)). apply in_app_iff in Hx' as [Hx'|[->|Hx']]; [apply in_app_iff; auto|contradiction|apply in_app_iff; auto]. }
  unfold sizes in *. rewrite map_app, sumn_app in *. cbn [map sumn fold_right]. unfold sumn in *. lia.
Qed.

Lemma near_marginalize k f f' vs h : near dom k f f' -> NoDup vs -> marginalize f vs = Ok h ->
  exists h', marginalize_by rmarg f' vs = Ok h' /\ near dom (k + W) h h'.
Proof.
  intros N ND E. destruct (near_marg_fold b vs f f' k h N E) as (h' & E' & NH). exists h'. split; [exact E'|]. eapply near_mono; [|exact NH].
  assert (B := sizes_bound vs ND). lia.
Qed.

(** Same tree, each table with its own error count. *)
Definition cnear (c : string -> nat) (p p' : string * clique) : Prop :=
  fst p' = fst p /\ cvars (snd p') = cvars (snd p) /\ near dom (c (fst p)) (cfac (snd p)) (cfac (snd p')).
Record tnear (c : string -> nat) (s : string -> string -> nat) (t t' : jtree) : Prop := {
  tn_adj : tadj t' = tadj t;
  tn_valid : tvalid t' = tvalid t;
  tn_nodes : Forall2 (cnear c) (tnodes t) (tnodes t');
  tn_edges : forall u v d, eget u v (tedges t) = Some d -> exists d', eget u v (tedges t') = Some d' /\ svars d' = svars d /\ near dom (s u v) (sfac d) (sfac d')
}.

Lemma cnear_get c l l' k x : Forall2 (cnear c) l l' -> dget k l = Some x -> exists x', dget k l' = Some x' /\ cvars x' = cvars x /\ near dom (c k) (cfac x) (cfac x').
Proof.
  induction 1 as [|[k1 x1] [k1' x1'] l l' (H1 & H2 & H3) HL IH]; cbn [dget fst snd] in *; [discriminate|]. subst k1'. destruct (String.eqb_spec k k1) as [->|n]; [|exact IH].
  intros E; inversion E; subst. eauto.
Qed.
Lemma cnear_set c l l' k x x' n : Forall2 (cnear c) l l' -> cvars x' = cvars x -> near dom n (cfac x) (cfac x') -> NoDup (dkeys l) -> In k (dkeys l) ->
  Forall2 (cnear (fun y => if String.eqb y k then n else c y)) (dset k x l) (dset k x' l').
Proof.
  intros F EV N. induction F as [|[k1 x1] [k1' x1'] l l' (H1 & H2 & H3) HL IH]; cbn [dset dkeys map fst snd] in *; [intros _ []|]. subst k1'. intros ND I. inversion ND as [|? ? NI ND']; subst.
  destruct (String.eqb_spec k k1) as [->|ne].
  - constructor; [split; [reflexivity|]; split; [exact EV|]; cbn [fst snd]; rewrite eqb_refl_s; exact N|].
    clear - HL NI. induction HL as [|[k2 x2] [k2' x2'] l l' (H1 & H2 & H3) HL IH]; cbn in *; constructor.
    + split; [exact H1|]. split; [exact H2|]. cbn. destruct (String.eqb_spec k2 k1) as [->|]; [exfalso; apply NI; left; reflexivity|exact H3].
    + apply IH. tauto.
  - constructor; [|apply IH; [exact ND'|destruct I; [congruence|assumption]]]. split; [reflexivity|]. split; [exact H2|]. cbn [fst snd]. destruct (String.eqb_spec k1 k) as [->|]; [congruence|exact H3].
Qed.
Lemma cnear_mono c c' l l' : (forall k, In k (dkeys l) -> c k <= c' k) -> Forall2 (cnear c) l l' -> Forall2 (cnear c') l l'.
Proof.
  intros L F. induction F as [|[k x] [k' x'] l l' (H1 & H2 & H3) HL IH]; constructor.
  - split; [exact H1|]. split; [exact H2|]. eapply near_mono; [|exact H3]. apply L. left; reflexivity.
  - apply IH. intros y Hy. apply L. right; exact Hy.
Qed.

Definition upd (c : string -> nat) (k : string) (n : nat) (y : string) : nat := if String.eqb y k then n else c y.
Definition upd2 (s : string -> string -> nat) (u v : string) (n : nat) (x y : string) : nat := if same_edge x y (u, v) then n else s x y.

Lemma send_near c s t t' k p t1 : tnear c s t t' -> NoDup (dkeys (tnodes t)) -> send k p t = (t1, Ok tt) ->
  exists t1', rsend k p t' = (t1', Ok tt) /\ tnear (upd c p (c p + (c k + W + s k p + 3))) (upd2 s k p (c k + W)) t1 t1'.
Proof.
  intros [A V N E] ND H. unfold send, dget_err in H. cbv zeta in H.
  destruct (dget k (tnodes t)) as [ck|] eqn:Ek; cbn [rbind] in H; [|discriminate].
  destruct (eget k p (tedges t)) as [sd|] eqn:Es; cbn [rbind] in H; [|discriminate].
  destruct (marginalize (cfac ck) (sdiff (cvars ck) (svars sd))) as [new|] eqn:Em; cbn [rbind] in H; [|discriminate].
  destruct (dget p (tnodes t)) as [cp|] eqn:Ep; cbn [rbind] in H; [|discriminate].
  destruct (fdiv new (sfac sd)) as [q|] eqn:Ed; cbn [rbind] in H; [|discriminate].
  destruct (fmul (cfac cp) q) as [f|] eqn:Ef; cbn [rbind] in H; [|discriminate]. inversion H; subst t1. clear H.
  destruct (cnear_get _ _ _ _ _ N Ek) as (ck' & Ek' & Vk & Nk). destruct (cnear_get _ _ _ _ _ N Ep) as (cp' & Ep' & Vp & Np).
  destruct (E _ _ _ Es) as (sd' & Es' & Vs & Ns).
  destruct (near_marginalize _ _ _ _ _ Nk (sdiff_nodup _ _) Em) as (new' & Em' & Nn).
  destruct (near_div _ _ _ _ _ _ _ Nn Ns Ed) as (q' & Ed' & Nq). destruct (near_mul dom _ _ _ _ _ _ _ Np Nq Ef) as (f' & Ef' & Nf).
  exists (set_sfac k p new' (set_cfac p f' t')). split.
  { unfold send_by, dget_err. rewrite Ek'. cbn [rbind]. rewrite Es'. cbn [rbind]. rewrite Vk, Vs, Em'. cbn [rbind]. rewrite Ep'. cbn [rbind]. rewrite Ed'. cbn [rbind]. rewrite Ef'. reflexivity. }
  split.
  - unfold set_sfac, set_cfac. rewrite Ep, Ep'. cbn [tedges]. rewrite Es, Es'. exact A.
  - unfold set_sfac, set_cfac. rewrite Ep, Ep'. cbn [tedges]. rewrite Es, Es'. exact V.
  - rewrite !tnodes_set_sfac. unfold set_cfac. rewrite Ep, Ep'. cbn [tnodes]. apply cnear_set; cbn [cvars cfac]; try assumption.
    + eapply near_mono; [|exact Nf]. lia.
    + eapply dget_Some_key, Ep.
  - intros u v d Hd. rewrite eget_set_sfac, tedges_set_cfac in *. unfold upd2. destruct (same_edge u v (k, p)) eqn:SE.
    + rewrite Es in Hd. rewrite Es'. cbn in Hd |- *. inversion Hd; subst. eexists; split; [reflexivity|]. split; [exact Vs|exact Nn].
    + apply E, Hd.
Qed.

Lemma tnear_mono c c' s s' t t' : (forall k, c k <= c' k) -> (forall u v, s u v <= s' u v) -> tnear c s t t' -> tnear c' s' t t'.
Proof.
  intros L M [A V N E]. split; [exact A|exact V| |].
  - eapply cnear_mono; [|exact N]. intros; apply L.
  - intros u v d Hd. destruct (E u v d Hd) as (d' & H1 & H2 & H3). exists d'. split; [exact H1|]. split; [exact H2|]. eapply near_mono; [apply M|exact H3].
Qed.

(** *** Towards the root *)
Definition Sm (c : string -> nat) (l : list string) : nat := sumn (map (fun a => c a + W + 3) l).
Lemma Sm_app c l l' : Sm c (l ++ l') = Sm c l + Sm c l'.
Proof. unfold Sm. rewrite map_app. apply sumn_app. Qed.
Lemma Sm_ext c c' l : (forall a, In a l -> c a = c' a) -> Sm c l = Sm c' l.
Proof. intros H. unfold Sm. f_equal. apply map_ext_in. intros a Ha. rewrite H; auto. Qed.

(** Edges between the nodes of a part of the tree and the node it hangs on. *)
Definition touched (p : string) (l : list string) (x y : string) : Prop := (In x l /\ In y (p :: l)) \/ (In y l /\ In x (p :: l)).
Lemma touched_incl p q l m x y : incl l m -> incl (p :: l) (q :: m) -> touched p l x y -> touched q m x y.
Proof. unfold touched. intros I J [[H1 H2]|[H1 H2]]; [left|right]; auto. Qed.
Lemma touched_dec p l x y : touched p l x y \/ ~ touched p l x y.
Proof. unfold touched. destruct (In_dec_s x l), (In_dec_s y l), (In_dec_s x (p :: l)), (In_dec_s y (p :: l)); tauto. Qed.

Definition pull_near (x : rtree) : Prop := forall fuel p t t1 t' c s,
  tnear c s t t' -> NoDup (dkeys (tnodes t)) -> pull fuel (rkey x) (Some p) t = (t1, Ok tt) ->
  adjok (tadj t) (Some p) x -> NoDup (p :: rkeys x) -> ~ In "" (p :: rkeys x) -> (forall a d, touched p (rkeys x) a d -> s a d = 0) ->
  exists t1' c1 s1, rpull fuel (rkey x) (Some p) t' = (t1', Ok tt) /\ tnear c1 s1 t1 t1' /\
    c1 p <= c p + Sm c (rkeys x) /\ (forall a, In a (rkeys x) -> c1 a <= Sm c (rkeys x)) /\ (forall a, ~ In a (p :: rkeys x) -> c1 a = c a) /\
    (forall a d, ~ touched p (rkeys x) a d -> s1 a d = s a d) /\ (forall a d, touched p (rkeys x) a d -> s1 a d <= Sm c (rkeys x)).

Lemma pull_each k cs : Forall pull_near cs -> forall fuel t t1 t' c s,
  tnear c s t t' -> NoDup (dkeys (tnodes t)) -> each (fun x => pull fuel x (Some k)) (map rkey cs) t = (t1, Ok tt) ->
  Forall (adjok (tadj t) (Some k)) cs -> NoDup (k :: flat_map rkeys cs) -> ~ In "" (k :: flat_map rkeys cs) -> (forall a d, touched k (flat_map rkeys cs) a d -> s a d = 0) ->
  exists t1' c1 s1, each (fun x => rpull fuel x (Some k)) (map rkey cs) t' = (t1', Ok tt) /\ tnear c1 s1 t1 t1' /\
    c1 k <= c k + Sm c (flat_map rkeys cs) /\ (forall a, In a (flat_map rkeys cs) -> c1 a <= Sm c (flat_map rkeys cs)) /\
    (forall a, ~ In a (k :: flat_map rkeys cs) -> c1 a = c a) /\
    (forall a d, ~ touched k (flat_map rkeys cs) a d -> s1 a d = s a d) /\ (forall a d, touched k (flat_map rkeys cs) a d -> s1 a d <= Sm c (flat_map rkeys cs)).
Proof.
  induction 1 as [|x cs PX PC IH]; intros fuel t t1 t' c s TN ND E Ad NK K0 S0; cbn [map each flat_map] in *.
  - inversion E; subst. exists t', c, s. split; [reflexivity|]. split; [exact TN|]. split; [lia|]. split; [intros a []|]. split; [reflexivity|]. split; [reflexivity|].
    intros a d [[[] _]|[[] _]].
  - destruct (pull fuel (rkey x) (Some k) t) as [tm [u|e]] eqn:EP; [|discriminate]. destruct u.
    inversion NK as [|? ? NI NF]; subst. inversion Ad as [|? ? A1 A2]; subst. assert (NDx := NoDup_app_l _ _ NF). assert (NDc := NoDup_app_r _ _ NF).
    assert (DJ : forall y, In y (rkeys x) -> ~ In y (flat_map rkeys cs)) by (intros y Hy; exact (NoDup_app_no _ _ y NF Hy)).
    destruct (PX fuel k t tm t' c s TN ND EP A1) as (tm' & cm & sm & EP' & TNm & B1 & B2 & B3 & B4 & B5).
    { constructor; [intros H; apply NI, in_app_iff; auto|exact NDx]. } { intros [H|H]; apply K0; cbn; rewrite in_app_iff; auto. }
    { intros a d H. apply S0. eapply touched_incl; [| |exact H]; [intros y Hy; apply in_app_iff; auto|]. intros y [->|Hy]; [left; reflexivity|right; apply in_app_iff; auto]. }
    assert (SK := skel_pull fuel (rkey x) (Some k) t). rewrite EP in SK. cbn [fst] in SK.
    assert (UN : forall a, In a (flat_map rkeys cs) -> cm a = c a).
    { intros a Ha. apply B3. intros [<-|H]; [apply NI, in_app_iff; auto|exact (DJ a H Ha)]. }
    assert (UT : forall a d, touched k (flat_map rkeys cs) a d -> ~ touched k (rkeys x) a d).
    { assert (NK2 : ~ In k (rkeys x)) by (intros H; apply NI, in_app_iff; auto). assert (NK3 : ~ In k (flat_map rkeys cs)) by (intros H; apply NI, in_app_iff; auto).
      unfold touched. cbn [In]. intros a d [[H1 [<-|H2]]|[H1 [<-|H2]]] [[H3 [H4|H4]]|[H3 [H4|H4]]]; subst; try tauto; try (exact (DJ _ H3 H1)); try (exact (DJ _ H3 H2)); try (exact (DJ _ H4 H1)); try (exact (DJ _ H4 H2)). }
    destruct (IH fuel tm t1 tm' cm sm TNm) as (t1' & c1 & s1 & E1' & TN1 & D1 & D2 & D3 & D4 & D5); clear IH.
    { rewrite (skel_keys _ _ SK). exact ND. } { exact E. } { rewrite (skel_adj _ _ SK). exact A2. } { constructor; [intros H; apply NI, in_app_iff; auto|exact NDc]. } { intros [H|H]; apply K0; cbn; rewrite in_app_iff; auto. }
    { intros a d H. rewrite B4 by (apply UT, H). apply S0. eapply touched_incl; [| |exact H]; [intros y Hy; apply in_app_iff; auto|]. intros y [->|Hy]; [left; reflexivity|right; apply in_app_iff; auto]. }
    rewrite (Sm_ext cm c _ UN) in *. exists t1', c1, s1. rewrite EP'. split; [exact E1'|]. split; [exact TN1|]. rewrite Sm_app.
    split; [lia|]. split; [|split; [|split]].
    + intros a Ha. destruct (In_dec_s a (flat_map rkeys cs)) as [Y|Y]; [specialize (D2 a Y); lia|]. apply in_app_iff in Ha as [Ha|Ha]; [|contradiction].
      rewrite D3; [specialize (B2 a Ha); lia|]. intros [<-|H]; [apply NI, in_app_iff; auto|contradiction].
    + intros a Ha. rewrite D3, B3; [reflexivity| |]; intros [<-|H]; apply Ha; cbn; rewrite ?in_app_iff; auto.
    + intros a d Ha. rewrite D4, B4; [reflexivity| |]; intros H; apply Ha; (eapply touched_incl; [| |exact H]; [intros y Hy; apply in_app_iff; auto|]; intros y [->|Hy]; [left; reflexivity|right; apply in_app_iff; auto]).
    + intros a d Ha. destruct (touched_dec k (flat_map rkeys cs) a d) as [Y|Y]; [specialize (D5 a d Y); lia|]. rewrite D4 by exact Y.
      destruct (touched_dec k (rkeys x) a d) as [Z|Z]; [specialize (B5 a d Z); lia|]. rewrite B4 by exact Z. rewrite S0 by exact Ha. lia.
Qed.

Lemma pull_all x : pull_near x.
Proof.
  induction x as [k cs IH] using rtree_ind'. intros fuel p t t1 t' c s TN ND E Ad NK P0 S0. destruct fuel as [|fuel]; [discriminate|]. cbn [rkey rkeys] in *.
  cbn [pull pull_by] in *. inversion Ad as [? ? ? Af Ac]; subst. rewrite (tn_adj _ _ _ _ TN), Af in *.
  destruct (each (fun x => pull fuel x (Some k)) (map rkey cs) t) as [tm [u|e]] eqn:EE; [|discriminate]. destruct u.
  assert (Es : send k p tm = (t1, Ok tt)) by (destruct p; [exfalso; apply P0; left; reflexivity|exact E]). clear E.
  inversion NK as [|? ? NP NK']; subst. inversion NK' as [|? ? NKC NC]; subst.
  destruct (pull_each k cs IH fuel t tm t' c s TN ND EE Ac NK') as (tm' & cm & sm & EE' & TNm & B1 & B2 & B3 & B4 & B5).
  { intros H. apply P0. right. exact H. }
  { intros a d H. apply S0. eapply touched_incl; [| |exact H]; [intros y Hy; right; exact Hy|]. intros y Hy. right. exact Hy. }
  assert (SK : skel tm = skel t).
  { assert (SK := skel_each (fun x => pull fuel x (Some k)) (map rkey cs) t (fun x t0 _ => skel_pull fuel x (Some k) t0)). rewrite EE in SK. exact SK. }
  assert (NDm : NoDup (dkeys (tnodes tm))) by (rewrite (skel_keys _ _ SK); exact ND).
  destruct (send_near cm sm tm tm' k p t1 TNm NDm Es) as (t1' & Es' & TN1). rewrite EE'.
  assert (SP : sm k p = 0).
  { rewrite B4. - apply S0. left. cbn; auto. - intros [[H _]|[H _]]; [contradiction|]. apply NP. right; exact H. }
  assert (CP : cm p = c p) by (apply B3; intros [H|H]; apply NP; [left; exact H|right; exact H]).
  assert (SMK : Sm c (k :: flat_map rkeys cs) = c k + W + 3 + Sm c (flat_map rkeys cs)) by reflexivity.
  do 3 eexists. split; [destruct p; [exfalso; apply P0; left; reflexivity|exact Es']|]. split; [exact TN1|]. rewrite SMK, SP, CP. unfold upd, upd2. split; [|split; [|split; [|split]]].
  - rewrite eqb_refl_s. lia.
  - intros a Ha. destruct (String.eqb_spec a p) as [->|_]; [contradiction|]. destruct Ha as [<-|Ha]; [lia|]. specialize (B2 a Ha). lia.
  - intros a Ha. destruct (String.eqb_spec a p) as [->|_]; [exfalso; apply Ha; left; reflexivity|]. apply B3. intros H. apply Ha. right. exact H.
  - intros a d Ha. destruct (same_edge a d (k, p)) eqn:SE.
    + exfalso. apply Ha. apply same_edge_spec in SE as [SE|SE]; inversion SE; subst; [left|right]; cbn; auto.
    + apply B4. intros H. apply Ha. eapply touched_incl; [| |exact H]; [intros y Hy; right; exact Hy|]. intros y Hy. right. exact Hy.
  - intros a d Ha. destruct (same_edge a d (k, p)); [lia|]. destruct (touched_dec k (flat_map rkeys cs) a d) as [Y|Y]; [specialize (B5 a d Y); lia|]. rewrite B4 by exact Y. rewrite S0 by exact Ha. lia.
Qed.

(** *** Away from the root *)
Definition push_near (x : rtree) : Prop := forall fuel p t t1 t' c s D T,
  tnear c s t t' -> NoDup (dkeys (tnodes t)) -> push fuel (rkey x) p t = (t1, Ok tt) -> adjok (tadj t) p x -> NoDup (rkeys x) ->
  c (rkey x) <= D -> (forall a, In a (rkeys x) -> a <> rkey x -> c a <= T) -> (forall a d, In a (rkeys x) -> In d (rkeys x) -> s a d <= T) ->
  exists t1' c1 s1, rpush fuel (rkey x) p t' = (t1', Ok tt) /\ tnear c1 s1 t1 t1' /\
    (forall a, In a (rkeys x) -> c1 a <= D + length (rkeys x) * (2 * T + W + 3)) /\ c1 (rkey x) = c (rkey x) /\
    (forall a, ~ In a (rkeys x) -> c1 a = c a) /\ (forall a d, ~ In a (rkeys x) \/ ~ In d (rkeys x) -> s1 a d = s a d).

Lemma push_each k D T cs : Forall push_near cs -> forall fuel t t1 t' c s,
  tnear c s t t' -> NoDup (dkeys (tnodes t)) ->
  each (fun x t => match send k x t with (t', Ok _) => push fuel x (Some k) t' | (t', Err e) => (t', Err e) end) (map rkey cs) t = (t1, Ok tt) ->
  Forall (adjok (tadj t) (Some k)) cs -> NoDup (k :: flat_map rkeys cs) ->
  c k <= D -> (forall a, In a (flat_map rkeys cs) -> c a <= T) -> (forall a d, In a (k :: flat_map rkeys cs) -> In d (k :: flat_map rkeys cs) -> s a d <= T) ->
  exists t1' c1 s1, each (fun x t => match rsend k x t with (t', Ok _) => rpush fuel x (Some k) t' | (t', Err e) => (t', Err e) end) (map rkey cs) t' = (t1', Ok tt) /\
    tnear c1 s1 t1 t1' /\ (forall a, In a (flat_map rkeys cs) -> c1 a <= D + (1 + length (flat_map rkeys cs)) * (2 * T + W + 3)) /\ c1 k = c k /\
    (forall a, ~ In a (flat_map rkeys cs) -> c1 a = c a) /\
    (forall a d, ~ In a (k :: flat_map rkeys cs) \/ ~ In d (k :: flat_map rkeys cs) -> s1 a d = s a d).
Proof.
  induction 1 as [|x cs PX PC IH]; intros fuel t t1 t' c s TN ND E Ad NK CK CT ST; cbn [map each flat_map] in *.
  - inversion E; subst. exists t', c, s. split; [reflexivity|]. split; [exact TN|]. split; [intros a []|]. split; [reflexivity|]. split; reflexivity.
  - destruct (send k (rkey x) t) as [ts [u|e]] eqn:ES; [|discriminate]. destruct u. destruct (push fuel (rkey x) (Some k) ts) as [tm [u|e]] eqn:EP; [|discriminate]. destruct u.
    inversion NK as [|? ? NI NF]; subst. inversion Ad as [|? ? A1 A2]; subst. assert (NDx := NoDup_app_l _ _ NF). assert (NDc := NoDup_app_r _ _ NF).
    assert (DJ : forall y, In y (rkeys x) -> ~ In y (flat_map rkeys cs)) by (intros y Hy; exact (NoDup_app_no _ _ y NF Hy)).
    assert (NX : ~ In k (rkeys x)) by (intros H; apply NI, in_app_iff; auto). assert (NC : ~ In k (flat_map rkeys cs)) by (intros H; apply NI, in_app_iff; auto).
    assert (RX := rkey_in x).
    destruct (send_near c s t t' k (rkey x) ts TN ND ES) as (ts' & ES' & TNs). rewrite ES'.
    assert (SK1 := skel_send k (rkey x) t). rewrite ES in SK1. cbn [fst] in SK1.
    assert (CX : c (rkey x) <= T) by (apply CT, in_app_iff; auto). assert (SX : s k (rkey x) <= T) by (apply ST; cbn; rewrite ?in_app_iff; auto).
    destruct (PX fuel (Some k) ts tm ts' _ _ (D + (2 * T + W + 3)) T TNs) as (tm' & cm & sm & EP' & TNm & B1 & B2 & B3 & B4).
    { rewrite (skel_keys _ _ SK1). exact ND. } { exact EP. } { rewrite (skel_adj _ _ SK1). exact A1. } { exact NDx. }
    { unfold upd. rewrite eqb_refl_s. lia. }
    { intros a Ha Na. unfold upd. destruct (String.eqb_spec a (rkey x)) as [->|_]; [congruence|]. apply CT, in_app_iff; auto. }
    { intros a d Ha Hd. unfold upd2. destruct (same_edge a d (k, rkey x)) eqn:SE; [|apply ST; right; apply in_app_iff; auto].
      apply same_edge_spec in SE as [SE|SE]; inversion SE; subst; contradiction. }
    rewrite EP'. assert (SK2 := skel_push fuel (rkey x) (Some k) ts). rewrite EP in SK2. cbn [fst] in SK2. assert (SK : skel tm = skel t) by congruence.
    assert (CKm : cm k = c k). { rewrite B3 by exact NX. unfold upd. destruct (String.eqb_spec k (rkey x)) as [->|_]; [contradiction|reflexivity]. }
    assert (CO : forall a, ~ In a (rkeys x) -> cm a = c a).
    { intros a Ha. rewrite B3 by exact Ha. unfold upd. destruct (String.eqb_spec a (rkey x)) as [->|_]; [contradiction|reflexivity]. }
    assert (SO' : forall a d, ~ In a (rkeys x) /\ ~ In d (rkeys x) -> sm a d = s a d).
    { intros a d [Ha Hd]. rewrite B4 by auto. unfold upd2. destruct (same_edge a d (k, rkey x)) eqn:SE; [|reflexivity]. apply same_edge_spec in SE as [SE|SE]; inversion SE; subst; contradiction. }
    destruct (IH fuel tm t1 tm' cm sm TNm) as (t1' & c1 & s1 & E1' & TN1 & D1 & D2 & D3 & D4); clear IH.
    { rewrite (skel_keys _ _ SK). exact ND. } { exact E. } { rewrite (skel_adj _ _ SK). exact A2. } { constructor; assumption. } { lia. }
    { intros a Ha. rewrite CO; [apply CT, in_app_iff; auto|]. intros H. exact (DJ a H Ha). }
    { intros a d Ha Hd. rewrite SO'; [apply ST; [destruct Ha; [left|right; apply in_app_iff]|destruct Hd; [left|right; apply in_app_iff]]; auto|].
      split; intros H; [destruct Ha as [<-|Ha]|destruct Hd as [<-|Hd]]; try contradiction; eapply DJ; eassumption. }
    exists t1', c1, s1. split; [exact E1'|]. split; [exact TN1|]. rewrite app_length. split; [|split; [|split]].
    + intros a Ha. destruct (In_dec_s a (flat_map rkeys cs)) as [Y|Y]; [specialize (D1 a Y); nia|]. apply in_app_iff in Ha as [Ha|Ha]; [|contradiction].
      rewrite D3 by exact Y. specialize (B1 a Ha). nia.
    + rewrite D2. exact CKm.
    + intros a Ha. rewrite D3, CO; [reflexivity| |]; intros H; apply Ha, in_app_iff; auto.
    + intros a d Ha. rewrite D4; [|cbn in *; rewrite !in_app_iff in Ha; tauto]. rewrite B4 by (cbn in *; rewrite !in_app_iff in Ha; tauto). unfold upd2. destruct (same_edge a d (k, rkey x)) eqn:SE; [|reflexivity].
      exfalso. apply same_edge_spec in SE as [SE|SE]; inversion SE; subst; cbn in Ha; rewrite !in_app_iff in Ha; tauto.
Qed.

Lemma push_all x : push_near x.
Proof.
  induction x as [k cs IH] using rtree_ind'. intros fuel p t t1 t' c s D T TN ND E Ad NK CD CT ST. destruct fuel as [|fuel]; [discriminate|]. cbn [rkey rkeys] in *.
  cbn [push push_by] in *. inversion Ad as [? ? ? Af Ac]; subst. rewrite (tn_adj _ _ _ _ TN), Af in *.
  destruct (push_each k D T cs IH fuel t t1 t' c s TN ND E Ac NK CD) as (t1' & c1 & s1 & E1 & TN1 & D1 & D2 & D3 & D4).
  - intros a Ha. apply CT; [right; exact Ha|]. intros ->. inversion NK; contradiction.
  - exact ST.
  - exists t1', c1, s1. split; [exact E1|]. split; [exact TN1|]. split; [|split; [exact D2|split; [|exact D4]]].
    + intros a [<-|Ha]; [lia|]. cbn [length]. exact (D1 a Ha).
    + intros a Ha. apply D3. intros H. apply Ha. right. exact H.
Qed.
End Trees.
