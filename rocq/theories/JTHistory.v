(** Call histories of a FactorTree; rejected evidence. *)
From Coq Require Import Field Relations.
From Verif Require Import Base BaseFacts NDArray NDArrayFacts SumCalc Factor FactorFacts Exact Spec SpecFacts VEProof VEProof2
  Order OrderSpec OrderProof JoinTree HuginPure Hugin JTProof JTProof2 JTBuild JTBuild2 JTBuild3.
From Verif Require Import TreeSpec JTTop JTJunction.

Lemma same_arcs_families b b' : same_arcs b b' -> families b = families b'.
Proof.
  unfold same_arcs, families, family. intros E. apply (f_equal (map (fun p => fst p :: snd p))) in E. rewrite !map_map in E. exact E.
Qed.

Lemma answers_in_clique t Q : answers t Q <-> in_clique t Q.
Proof. unfold answers, in_clique, tree_keys. split; intros (k & H1 & H2); exists k; rewrite tree_vars_cvo in *; auto. Qed.

Definition knows {SO : SetOrder} (t : jtree) (k : option (bn * evidence * bool)) : Prop :=
  match k with
  | None => True
  | Some (b, ev, soft) => wf_bn b /\ nonneg_bn b /\ exists r sv ev', (if soft then meant b ev ev' else ev' = ev) /\ ev_ok b ev' /\
      holds b t r sv (iweight b ev')
  end.

Section Hist.
Context {SO : SetOrder}.

Lemma history b0 t k : reaches b0 t k -> (exists r sv, jt_ok b0 t r sv) /\ knows t k.
Proof.
  induction 1 as [order o t EO SU NN EC|b ev t k R IH SA WB NN EV K|b ev t k R IH SA WB NN EV K SP|b ev soft t k R IH|b t k R IH SA WB NN
    |t k R IH|Q t k R IH].
  - destruct (create_ok b0 o order SU NN EO) as (t' & r & sv & E & J & V & L). rewrite EC in E. inversion E; subst t'.
    assert (WB := su_bn _ _ SU). split; [eauto|]. cbn. split; [exact WB|]. split; [exact NN|]. exists r, sv, [].
    split; [reflexivity|]. split; [apply ev_nil|]. split; [exact J|]. right. split; [exact V|].
    eapply loaded_ext; [exact L|]. intros a _. apply iweight_nil, WB.
  - destruct IH as [(r & sv & J) _]. assert (F := same_arcs_families _ _ SA).
    assert (Jb : jt_ok b t r sv) by (eapply jt_ok_same; [exact F|reflexivity|exact J]).
    destruct (set_evidence_calibrates b WB ev t r sv NN EV K Jb) as (t' & E & S & V & C). rewrite E. cbn [fst].
    split; [exists r, sv; eapply jt_ok_same; [reflexivity|symmetry; exact S|exact J]|].
    cbn. split; [exact WB|]. split; [exact NN|]. exists r, sv, ev. split; [reflexivity|]. split; [exact EV|].
    split; [eapply jt_ok_same; [reflexivity|symmetry; exact S|exact Jb]|]. left. auto.
  - destruct IH as [(r & sv & J) _]. assert (F := same_arcs_families _ _ SA).
    assert (Jb : jt_ok b t r sv) by (eapply jt_ok_same; [exact F|reflexivity|exact J]).
    destruct (set_evidence_soft b WB NN ev t r sv EV K SP Jb) as (ev' & t' & M & E & S & V & C). rewrite E. cbn [fst].
    split; [exists r, sv; eapply jt_ok_same; [reflexivity|symmetry; exact S|exact J]|].
    cbn. split; [exact WB|]. split; [exact NN|]. exists r, sv, ev'. split; [exact M|]. split; [eapply meant_ok; eassumption|].
    split; [eapply jt_ok_same; [reflexivity|symmetry; exact S|exact Jb]|]. left. auto.
  - destruct IH as [(r & sv & J) _]. split; [|exact I]. exists r, sv.
    eapply jt_ok_same; [reflexivity|symmetry; apply skel_set_evidence|exact J].
  - destruct IH as [(r & sv & J) _]. assert (F := same_arcs_families _ _ SA).
    assert (Jb : jt_ok b t r sv) by (eapply jt_ok_same; [exact F|reflexivity|exact J]).
    destruct (reset_loaded b WB t r sv NN Jb) as (t' & E & S & V & L). rewrite E. cbn [fst].
    split; [exists r, sv; eapply jt_ok_same; [reflexivity|symmetry; exact S|exact J]|].
    cbn. split; [exact WB|]. split; [exact NN|]. exists r, sv, []. split; [reflexivity|]. split; [apply ev_nil|].
    split; [eapply jt_ok_same; [reflexivity|symmetry; exact S|exact Jb]|]. right. split; [exact V|].
    eapply loaded_ext; [exact L|]. intros a _. apply iweight_nil, WB.
  - destruct IH as [(r & sv & J) KN]. split; [exists r, sv; eapply jt_ok_same; [reflexivity|symmetry; apply skel_calc|exact J]|].
    destruct k as [[[b ev] soft]|]; [|exact I]. destruct KN as (WB & NN & r' & sv' & ev' & M & EV & H).
    cbn. split; [exact WB|]. split; [exact NN|]. exists r', sv', ev'. split; [exact M|]. split; [exact EV|].
    destruct (calc_holds b WB t r' sv' ev' NN EV H) as (t' & E & H' & _). rewrite E. exact H'.
  - destruct IH as [(r & sv & J) KN]. split; [exists r, sv; eapply jt_ok_same; [reflexivity|symmetry; apply skel_marginals|exact J]|].
    destruct k as [[[b ev] soft]|]; [|exact I]. destruct KN as (WB & NN & r' & sv' & ev' & M & EV & H).
    cbn. split; [exact WB|]. split; [exact NN|]. exists r', sv', ev'. split; [exact M|]. split; [exact EV|].
    apply (marginals_holds b WB t r' sv' ev' Q NN EV H).
Qed.

Lemma history_marginals b0 t b ev soft Q : reaches b0 t (Some (b, ev, soft)) -> NoDup Q -> answers t Q ->
  exists ev' f, (if soft then meant b ev ev' else ev' = ev) /\ snd (tmarginals t Q) = Ok f /\ reports b f Q (posterior b ev').
Proof.
  intros R ND A. destruct (history _ _ _ R) as [_ (WB & NN & r & sv & ev' & M & EV & H)].
  destruct (marginals_holds b WB t r sv ev' Q NN EV H) as [_ X].
  destruct X as (f & E & Rf); [exact ND|apply answers_in_clique, A|]. exists ev', f. auto.
Qed.

(** The queries a history can answer are those of the created tree. *)
Lemma history_shape b0 t k : reaches b0 t k -> 
  exists t0 order o, create_jointree b0 order = Ok t0 /\ order_or_default b0 order = Ok o /\ suits b0 o /\ skel t = skel t0.
Proof.
  induction 1 as [order o t EO SU NN EC|b ev t k R IH SA WB NN EV K|b ev t k R IH SA WB NN EV K SP|b ev soft t k R IH|b t k R IH SA WB NN
    |t k R IH|Q t k R IH]; [exists t, order, o; auto|..]; destruct IH as (t0 & order & o & E1 & E2 & E3 & E4); exists t0, order, o;
    (split; [exact E1|]); (split; [exact E2|]); (split; [exact E3|]); rewrite <- E4.
  - apply skel_set_evidence. - apply skel_set_evidence. - apply skel_set_evidence. - apply skel_reset. - apply skel_calc. - apply skel_marginals.
Qed.

Lemma messages_again b0 t k : reaches b0 t (Some k) -> tvalid t = true ->
  exists t', calculate_messages t = (t', Ok tt) /\ tnodes t' = tnodes t /\ tvalid t' = true.
Proof.
  intros R V. destruct k as [[b ev] soft]. destruct (history _ _ _ R) as [_ (WB & NN & r & sv & ev' & M & EV & (J & [[_ C]|[V' _]]))]; [|congruence].
  destruct (calculate_again b WB t r sv (iweight b ev') J C (iweight_ext b WB ev')) as (t' & E & E2 & S & V' & C').
  { intros a _. apply iweight_nonneg; assumption. }
  exists t'. auto.
Qed.

Lemma messages_validate b0 t k : reaches b0 t (Some k) -> exists t', calculate_messages t = (t', Ok tt) /\ tvalid t' = true.
Proof.
  intros R. destruct k as [[b ev] soft]. destruct (history _ _ _ R) as [_ (WB & NN & r & sv & ev' & M & EV & H)].
  destruct (calc_holds b WB t r sv ev' NN EV H) as (t' & E & _ & V). eauto.
Qed.

Lemma marginals_tree_valid b0 t k Q : reaches b0 t (Some k) -> tvalid (fst (tmarginals t Q)) = true.
Proof.
  intros R. unfold tmarginals. destruct (tvalid t) eqn:V; cbn; [exact V|].
  destruct (messages_validate _ _ _ R) as (t' & E & V'). rewrite E. exact V'.
Qed.

Lemma marginals_again b0 t k Q Q' : reaches b0 t (Some k) ->
  let t1 := fst (tmarginals t Q) in let t2 := fst (tmarginals t1 Q') in
  snd (tmarginals t2 Q) = snd (tmarginals t Q) /\ t2 = t1.
Proof.
  intros R t1 t2. assert (V1 : tvalid t1 = true) by (eapply marginals_tree_valid, R).
  assert (E2 : t2 = t1) by (unfold t2, tmarginals; rewrite V1; reflexivity).
  split; [|exact E2]. rewrite E2. unfold t1, tmarginals at 2 3. destruct (tvalid t) eqn:V; cbn [fst snd].
  - unfold tmarginals. rewrite V. reflexivity.
  - destruct (messages_validate _ _ _ R) as (t' & E & V'). rewrite E. cbn [fst snd]. unfold tmarginals. rewrite V'. reflexivity.
Qed.

(** ** Rejected evidence *)
Lemma as_evidence_rejected b v e : wf_bn b -> rejected b v e -> forall t, exists x, add_tree_evidence b [] (v, e) t = (t, Err x) /\
  x = (if mem v (bnames b) then ValueError else PlainException).
Proof.
  intros WB H t. unfold add_tree_evidence. cbn [fst snd].
  destruct (in_dec string_dec v (bnames b)) as [Hv|Hv].
  - rewrite (proj2 (mem_In _ _) Hv). destruct H as [H|H]; [contradiction|]. destruct (in_bnames b v Hv) as (n & Hn & <-).
    rewrite (get_node_ok b WB n Hn). cbn [rbind dget]. rewrite (values_of_node b WB n Hn) in H. unfold as_evidence.
    destruct e as [x|q].
    + rewrite (proj2 (index_of_None _ _) H). eexists. split; reflexivity.
    + rewrite (proj2 (Nat.eqb_neq _ _) H). eexists. split; reflexivity.
  - assert (M : mem v (bnames b) = false) by (apply not_true_iff_false; rewrite mem_In; exact Hv). rewrite M.
    assert (E : get_node b v = Err PlainException).
    { unfold get_node. destruct (find _ (bnodes b)) as [n|] eqn:EF; [|reflexivity]. exfalso. apply Hv.
      apply find_some in EF as [EF1 EF2]. apply String.eqb_eq in EF2. subst v. apply in_map, EF1. }
    rewrite E. eexists. split; reflexivity.
Qed.

Lemma each_app {A} (f : A -> jtree -> jtree * res unit) l1 l2 t t' : each f l1 t = (t', Ok tt) -> each f (l1 ++ l2) t = each f l2 t'.
Proof.
  revert t; induction l1 as [|x l1 IH]; intros t E; cbn in *; [inversion E; reflexivity|].
  destruct (f x t) as [t1 [u|er]]; [apply IH, E|discriminate].
Qed.

Lemma rejected_evidence b0 t k b pre v e post Q : reaches b0 t k -> same_arcs b0 b -> wf_bn b -> nonneg_bn b ->
  ev_ok b pre -> incl (dkeys pre) (bnames b) -> rejected b v e ->
  exists t' x, set_evidence b (pre ++ (v, e) :: post) false t = (t', Err x) /\
    x = (if mem v (bnames b) then ValueError else PlainException) /\
    (NoDup Q -> answers t Q -> exists f, snd (tmarginals t' Q) = Ok f /\ reports b f Q (posterior b pre)).
Proof.
  intros R SA WB NN EV K RJ. destruct (history _ _ _ R) as [(r & sv & J) _]. assert (F := same_arcs_families _ _ SA).
  assert (Jb : jt_ok b t r sv) by (eapply jt_ok_same; [exact F|reflexivity|exact J]).
  destruct (reset_loaded b WB t r sv NN Jb) as (t1 & E1 & S1 & V1 & L1).
  assert (J1 : jt_ok b t1 r sv) by (eapply jt_ok_same; [reflexivity|symmetry; exact S1|exact Jb]).
  destruct (each_evidence b WB pre pre EV (incl_refl _) K t1 r sv _ J1 L1) as (t2 & E2 & S2 & V2 & L2).
  destruct (as_evidence_rejected b v e WB RJ t2) as (x & Ex & Kx).
  exists t2, x. split; [|split; [exact Kx|]].
  - unfold set_evidence. rewrite E1. cbn iota beta. rewrite (each_app _ _ _ _ _ E2). cbn [each]. rewrite Ex. reflexivity.
  - intros ND A. assert (H : holds b t2 r sv (iweight b pre)).
    { split; [eapply jt_ok_same; [reflexivity|symmetry; exact S2|exact J1]|]. right. split; [congruence|].
      eapply loaded_ext; [exact L2|]. intros a _. apply iweight_split; assumption. }
    destruct (marginals_holds b WB t2 r sv pre Q NN EV H) as [_ X]. apply X; [exact ND|].
    apply (in_clique_skel t t2); [congruence|]. apply answers_in_clique, A.
Qed.
End Hist.

Lemma desired_posterior {SO : SetOrder} b0 t k b v q : reaches b0 t k -> same_arcs b0 b -> wf_bn b -> nonneg_bn b ->
  In v (bnames b) -> length q = length (values_of b v) -> Forall (fun x => 0 <= x)%Qc q -> qsum q = 1%Qc ->
  (forall i, nth i (prior b v) 0%Qc = 0%Qc -> nth i q 0%Qc = 0%Qc) ->
  exists t' f, set_evidence b [(v, Soft q)] true t = (t', Ok tt) /\ snd (tmarginals t' [v]) = Ok f /\
    vorder f = [v] /\ dget v (fvals f) = Some (values_of b v) /\ shape (pot f) = [length (values_of b v)] /\ data (pot f) = q.
Proof.
  intros R SA WB NN Hv Lq Nq Sq Zq. destruct (history _ _ _ R) as [(r & sv & J) _]. assert (F := same_arcs_families _ _ SA).
  assert (Jb : jt_ok b t r sv) by (eapply jt_ok_same; [exact F|reflexivity|exact J]).
  assert (EV : ev_ok b [(v, Soft q)]).
  { split; [cbn; constructor; [tauto|constructor]|]. intros w e [E|[]] _. inversion E; subst. auto. }
  assert (K : incl (dkeys [(v, Soft q)]) (bnames b)) by (intros w [<-|[]]; exact Hv).
  assert (SP : supported b [(v, Soft q)]).
  { intros w p [E|[]]. inversion E; subst w p. split; [|intros i _; apply Zq].
    destruct (Forall_Exists_dec (fun x : Qc => x = 0%Qc) (fun x => Qc_eq_dec x 0%Qc) q) as [Z|Z].
    - exfalso. assert (E0 : qsum q = 0%Qc).
      { rewrite <- (map_id q). apply qsum_zero. rewrite Forall_forall in Z. exact Z. }
      rewrite E0 in Sq. apply (f_equal this) in Sq. discriminate.
    - apply Exists_exists in Z as (x & Hx & Nx). apply (In_nth _ _ 0%Qc) in Hx as (i & Hi & <-). exists i. split; [exact Hi|].
      apply Qc_nonneg_neq0_pos; [apply nth_Forall_nonneg, Nq|exact Nx]. }
  destruct (set_evidence_soft b WB NN _ t r sv EV K SP Jb) as (ev' & t' & M & E & S & V & C).
  inversion M as [| |v0 q0 l ev ev0 MV M']; subst. inversion M'; subst.
  assert (Jt : jt_ok b t' r sv) by (eapply jt_ok_same; [reflexivity|symmetry; exact S|exact Jb]).
  assert (EV' := meant_ok b _ _ M EV).
  assert (H : holds b t' r sv (iweight b [(v, Soft l)])) by (split; [exact Jt|left; auto]).
  destruct (marginals_holds b WB t' r sv _ [v] NN EV' H) as [_ X].
  destruct X as (f & Ef & Rf); [constructor; [tauto|constructor]|apply (name_in_clique b t' r sv v Jt Hv)|].
  exists t', f. split; [exact E|]. split; [exact Ef|].
  assert (ND : NoDup (values_of b v)).
  { destruct (in_bnames b v Hv) as (n & Hn & <-). rewrite (values_of_node b WB n Hn). apply (wn_values _ _ (wb_nodes _ WB n Hn)). }
  assert (O := reports_order1 b f v _ Rf). assert (Rf0 := Rf). destruct Rf0 as (_ & _ & H3 & _ & H5 & _).
  rewrite O in H3, H5. split; [exact O|]. split; [apply H3; left; reflexivity|]. split; [exact H5|].
  rewrite (reports_single b WB f v _ Rf Hv).
  apply nth_ext with (d := 0%Qc) (d' := 0%Qc); [rewrite map_length; congruence|]. rewrite map_length. intros i Hi.
  rewrite (nth_indep (map _ _) 0%Qc (posterior b [(v, Soft l)] [(v, "")])) by (rewrite map_length; exact Hi).
  rewrite (map_nth (fun x => posterior b [(v, Soft l)] [(v, x)])).
  rewrite (posterior_desired b WB NN v l q _ f Hv) by (try assumption; apply nth_In, Hi).
  rewrite position_idx, idx_nth by assumption. reflexivity.
Qed.

Section Top.
Context {SO : SetOrder}.

Lemma tree_marginals b o order t ev Q :
  suits b o -> nonneg_bn b -> order_or_default b order = Ok o -> create_jointree b order = Ok t ->
  ev_ok b ev -> incl (dkeys ev) (bnames b) -> NoDup Q -> answers t Q ->
  exists t' f, set_evidence b ev false t = (t', Ok tt) /\ snd (tmarginals t' Q) = Ok f /\ reports b f Q (posterior b ev).
Proof.
  intros S NN EO EC EV K ND A. destruct (create_ok b o order S NN EO) as (t0 & r & sv & E & J & _). rewrite EC in E. inversion E; subst t0.
  assert (WB := su_bn _ _ S).
  destruct (set_evidence_calibrates b WB ev t r sv NN EV K J) as (t' & E' & S' & V & C).
  assert (H : holds b t' r sv (iweight b ev)) by (split; [eapply jt_ok_same; [reflexivity|symmetry; exact S'|exact J]|left; auto]).
  destruct (marginals_holds b WB t' r sv ev Q NN EV H) as [_ X].
  destruct X as (f & Ef & Rf); [exact ND|apply (in_clique_skel t t'); [congruence|apply answers_in_clique, A]|].
  exists t', f. auto.
Qed.

Lemma answers_skel t t' Q : skel t = skel t' -> answers t Q -> answers t' Q.
Proof. intros E A. apply answers_in_clique. apply (in_clique_skel t t' Q E), answers_in_clique, A. Qed.

Lemma answers_names b0 t k Q : reaches b0 t k -> answers t Q -> incl Q (bnames b0).
Proof.
  intros R (c & _ & I) v Hv. destruct (history _ _ _ R) as [(r & sv & J) _]. specialize (I v Hv). rewrite tree_vars_cvo in I.
  apply (jo_U _ _ _ _ J c), I.
Qed.

Lemma tree_distribution b0 t b ev Q f :
  reaches b0 t (Some (b, ev, false)) -> ev_ok b ev -> NoDup Q -> answers t Q -> snd (tmarginals t Q) = Ok f ->
  Forall (fun x => 0 <= x)%Qc (data (pot f)) /\
  (mass b ev [] <> 0%Qc -> qsum (data (pot f)) = 1%Qc) /\
  (mass b ev [] = 0%Qc -> Forall (fun x => x = 0%Qc) (data (pot f))).
Proof.
  intros R EV ND A E. destruct (history_marginals b0 t b ev false Q R ND A) as (ev' & f' & -> & E' & Rf).
  rewrite E in E'. inversion E'; subst f'. destruct (history _ _ _ R) as [_ (WB & NN & r & sv & ev' & _ & _ & (J & _))].
  apply (reports_distribution b WB f Q ev NN EV ND); [|exact Rf].
  destruct A as (c & _ & I). intros v Hv. specialize (I v Hv). rewrite tree_vars_cvo in I. apply (jo_U _ _ _ _ J c), I.
Qed.

Lemma calls_succeed b0 t k b ev :
  reaches b0 t k -> same_arcs b0 b -> wf_bn b -> nonneg_bn b -> ev_ok b ev -> incl (dkeys ev) (bnames b) ->
  snd (set_evidence b ev false t) = Ok tt /\ snd (reset_factors b t) = Ok tt /\
  (supported b ev -> snd (set_evidence b ev true t) = Ok tt) /\
  forall soft Q, answers (fst (set_evidence b ev soft t)) Q <-> answers t Q.
Proof.
  intros R SA WB NN EV K. destruct (history _ _ _ R) as [(r & sv & J) _]. assert (F := same_arcs_families _ _ SA).
  assert (Jb : jt_ok b t r sv) by (eapply jt_ok_same; [exact F|reflexivity|exact J]).
  split; [destruct (set_evidence_calibrates b WB ev t r sv NN EV K Jb) as (t' & E & _); rewrite E; reflexivity|].
  split; [destruct (reset_loaded b WB t r sv NN Jb) as (t' & E & _); rewrite E; reflexivity|].
  split; [intros SP; destruct (set_evidence_soft b WB NN ev t r sv EV K SP Jb) as (ev' & t' & _ & E & _); rewrite E; reflexivity|].
  intros soft Q. split; apply answers_skel; [|symmetry]; apply skel_set_evidence.
Qed.
End Top.
