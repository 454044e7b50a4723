(** Outcomes of the calls on a FactorTree. *)
From Coq Require Import Field Relations.
From Verif Require Import Base BaseFacts NDArray NDArrayFacts SumCalc Factor FactorFacts Exact Spec SpecFacts VEProof VEProof2
  Order OrderSpec OrderProof JoinTree HuginPure Hugin JTProof JTProof2 JTBuild JTBuild2 JTBuild3.
From Verif Require Import TreeSpec JTTop JTJunction JTHistory JTAgain JTAgain2 JTAgain3 ErrSpec ErrProof4 TreeErrSpec.

(** ** create_jointree *)
Lemma cluster_seq_outcome o : forall g, ug g ->
  (NoDup o /\ incl o (dkeys g) -> exists cs, cluster_seq o g = Ok cs) /\ (forall e, cluster_seq o g = Err e -> e = NetworkXError /\ ~ (NoDup o /\ incl o (dkeys g))).
Proof.
  induction o as [|v o IH]; intros g G; cbn [cluster_seq].
  - split; [eauto|discriminate].
  - destruct (remove_unode_spec v g G) as (G' & K' & _). destruct (IH _ G') as [A B]. destruct (dmem v g) eqn:M.
    + apply dmem_In in M. split.
      * intros [ND I]. apply NoDup_cons_iff in ND as [N ND]. destruct A as (cs & E).
        { split; [exact ND|]. intros w Hw. apply K'. split; [apply I; right; exact Hw|intros ->; contradiction]. }
        rewrite E. cbn [rbind]. eauto.
      * intros e E. destruct (cluster_seq o (remove_unode v g)) as [cs|x] eqn:EC; [discriminate|]. cbn in E. inversion E; subst x.
        destruct (B e eq_refl) as [-> N]. split; [reflexivity|]. intros [ND I]. apply N. apply NoDup_cons_iff in ND as [Nv ND].
        split; [exact ND|]. intros w Hw. apply K'. split; [apply I; right; exact Hw|intros ->; contradiction].
    + split.
      * intros [_ I]. exfalso. assert (X : dmem v g = true) by (apply dmem_In, I; left; reflexivity). congruence.
      * intros e E. inversion E. split; [reflexivity|]. intros [_ I]. assert (X : dmem v g = true) by (apply dmem_In, I; left; reflexivity). congruence.
Qed.

Lemma build_nodes L : NoDup (dkeys (tnodes (build_tree L))) /\ forall k c, dget k (tnodes (build_tree L)) = Some c -> In (cvars c) L /\ cfac c = trivial 1%Qc.
Proof.
  induction L as [|c L [N H]]; [split; [constructor|discriminate]|].
  assert (X : tnodes (build_tree (c :: L)) = dset (key_of c) (mkC c (trivial 1%Qc)) (tnodes (build_tree L))).
  { cbn [build_tree]. destruct (jprop c L); [reflexivity|]. destruct (find _ L); reflexivity. }
  rewrite X. split.
  - rewrite dkeys_dset. destruct (mem (key_of c) (dkeys (tnodes (build_tree L)))) eqn:M; [exact N|].
    apply NoDup_app_disj; [exact N|constructor; [tauto|constructor]|]. intros k Hk [<-|[]]. apply mem_In in Hk. congruence.
  - intros k d E. rewrite dget_dset in E. destruct (String.eqb k (key_of c)).
    + inversion E; subst. cbn. auto.
    + destruct (H k d E) as [A B]. split; [right; exact A|exact B].
Qed.

Section Create.
Context {SO : SetOrder}.

Lemma create_outcome b order e : wf_bn b -> wf_graph b -> nonneg_bn b ->
  (create_jointree b order = Err e <-> e = NetworkXError /\ exists o, order = Some o /\ ~ (NoDup o /\ incl o (bnames b))).
Proof.
  intros WB WG NN. destruct (moral_ug b WB WG) as (UG & KG).
  assert (KN : forall w, In w (dkeys (moral_graph b)) <-> In w (bnames b)).
  { intros w. rewrite KG. split; apply Permutation_in; [apply Permutation_sym|]; apply (wg_nodes _ WG). }
  assert (GO : forall o, order_or_default b order = Ok o -> NoDup o -> incl o (bnames b) -> exists t, create_jointree b order = Ok t).
  { intros o EO ND I. unfold create_jointree. rewrite EO. cbn [rbind].
    destruct (proj1 (cluster_seq_outcome o _ UG)) as (cs & Ec); [split; [exact ND|]; intros w Hw; apply KN, I, Hw|]. rewrite Ec. cbn [rbind].
    destruct (cluster_seq_facts (bnames b) o _ cs UG) as (_ & _ & Hh & Hc); [intros w Hw; apply KN, Hw|exact Ec|].
    assert (NDc : NoDup cs) by (apply (NoDup_map_inv head); rewrite Hh; exact ND).
    destruct (prune_some cs NDc) as (L & El & _ & IL & _). rewrite El. cbn [rbind].
    destruct (build_nodes L) as [NK HL].
    destruct (assign_nodes b WB NN (bnodes b) (incl_refl _) (mkT (tnodes (build_tree L)) [] [] false)) as (t & E & _).
    { exact NK. }
    { split; [|discriminate|discriminate]. cbn [tnodes]. intros k c E. destruct (HL k c E) as [A ->]. destruct (Hc _ (IL _ A)) as (X & _ & Y).
      split; [exact X|apply ok_trivial, Y]. }
    unfold assign_factors in E |- *. cbn [tnodes tadj tedges tvalid] in E. destruct (foldM _ _ _) as [ns|x]; [|discriminate]. cbn [rbind]. eauto. }
  assert (DEF : forall o, order_or_default b order = Ok o -> order = Some o \/ NoDup o /\ incl o (bnames b)).
  { intros o EO. unfold order_or_default in EO.
    assert (D : get_min_degree_order b = Ok o -> NoDup o /\ incl o (bnames b)).
    { intros E. destruct (min_degree_greedy b WG) as (r & Er & P & _). rewrite E in Er. inversion Er; subst r.
      split; [apply (Permutation_NoDup P), WB|intros w; apply Permutation_in, Permutation_sym, P]. }
    destruct order as [[|x o']|]; [right; auto|left; congruence|right; auto]. }
  assert (EX : exists o, order_or_default b order = Ok o).
  { destruct (min_degree_greedy b WG) as (r & Er & _). unfold order_or_default. destruct order as [[|? ?]|]; eauto. }
  destruct EX as (o & EO). split.
  - intros E. unfold create_jointree in E. rewrite EO in E. cbn [rbind] in E.
    destruct (cluster_seq o (moral_graph b)) as [cs|x] eqn:Ec.
    + exfalso. destruct (cluster_seq_facts (bnames b) o _ cs UG) as (ND & I & _); [intros w Hw; apply KN, Hw|exact Ec|].
      destruct (GO o EO ND) as (t & Et); [intros w Hw; apply KN, I, Hw|]. unfold create_jointree in Et. rewrite EO in Et. cbn [rbind] in Et. rewrite Ec in Et. congruence.
    + cbn in E. inversion E; subst x. destruct (proj2 (cluster_seq_outcome o _ UG) e Ec) as [-> N]. split; [reflexivity|]. exists o.
      assert (N' : ~ (NoDup o /\ incl o (bnames b))) by (intros [A B]; apply N; split; [exact A|intros w Hw; apply KN, B, Hw]).
      split; [|exact N']. destruct (DEF o EO); [assumption|contradiction].
  - intros (-> & o' & -> & N). unfold create_jointree. rewrite EO. cbn [rbind].
    assert (o = o'). { destruct o' as [|x o']; [exfalso; apply N; split; [constructor|intros ? []]|]. cbn in EO. congruence. } subst o'.
    destruct (cluster_seq o (moral_graph b)) as [cs|x] eqn:Ec; [|cbn; f_equal; apply (proj2 (cluster_seq_outcome o _ UG) x Ec)].
    exfalso. apply N. destruct (cluster_seq_facts (bnames b) o _ cs UG) as (A & B & _); [intros w Hw; apply KN, Hw|exact Ec|].
    split; [exact A|intros w Hw; apply KN, B, Hw].
Qed.

(** ** marginals *)
Lemma unanswered t t' Q : skel t' = skel t -> ~ answers t Q -> NoDup (dkeys (tnodes t)) -> find (fun p => subset Q (cvars (snd p))) (tnodes t') = None.
Proof.
  intros S N ND. destruct (find _ (tnodes t')) as [[k c]|] eqn:E; [|reflexivity]. exfalso. apply N.
  apply find_some in E as [I H]. cbn [snd] in H. apply subset_spec in H. apply answers_in_clique.
  apply (in_clique_skel t' t); [exact S|]. assert (K := skel_keys _ _ S). exists k. split.
  - unfold cvo. rewrite dget_vars, (In_dget k c); [exact H| |exact I]. rewrite K. exact ND.
  - unfold dkeys. apply in_map_iff. exists (k, c). auto.
Qed.

Lemma marginals_outcome b0 t k Q e : reaches b0 t (Some k) ->
  ((exists f, snd (tmarginals t Q) = Ok f) <-> answers t Q) /\ (snd (tmarginals t Q) = Err e <-> e = ValueError /\ ~ answers t Q).
Proof.
  intros R. destruct k as [[b ev] soft].
  assert (A1 : answers t Q -> exists f, snd (tmarginals t Q) = Ok f).
  { intros A. apply answers_in_clique in A. destruct (history _ _ _ R) as [_ (WB & NN & r & sv & ev' & _ & EV & H)].
    destruct (calc_holds b WB t r sv ev' NN EV H) as (t' & E & H' & V'). assert (SK := skel_calc t). rewrite E in SK. cbn [fst] in SK.
    destruct (tvalid t) eqn:V.
    - destruct H as (J & [[_ C]|[X _]]); [|congruence].
      destruct (query_ok b WB t r sv _ Q J C V A (iweight_ext b WB ev')) as (f & Ef & _). rewrite Ef. eexists. reflexivity.
    - destruct H' as (J' & [[_ C']|[X _]]); [|congruence].
      destruct (query_ok b WB t' r sv _ Q J' C' V' (in_clique_skel t t' Q (eq_sym SK) A) (iweight_ext b WB ev')) as (f & Ef & _).
      unfold tmarginals in Ef |- *. rewrite V' in Ef. rewrite V, E. cbn [snd]. injection Ef as Ef. rewrite Ef. eexists. reflexivity. }
  assert (A2 : ~ answers t Q -> snd (tmarginals t Q) = Err ValueError).
  { intros N. destruct (history _ _ _ R) as [(r & sv & J) _].
    assert (ND : NoDup (dkeys (tnodes t))) by apply J.
    unfold tmarginals. destruct (tvalid t).
    - cbn [snd]. rewrite (unanswered t t Q eq_refl N ND). reflexivity.
    - destruct (messages_validate _ _ _ R) as (t' & E & V). rewrite E. cbn [snd]. rewrite (unanswered t t' Q); [reflexivity| |exact N|exact ND].
      assert (X := skel_calc t). rewrite E in X. exact X. }
  assert (D : answers t Q \/ ~ answers t Q).
  { unfold answers. generalize (tree_keys t). induction l as [|k l IH]; [right; intros (? & [] & _)|].
    destruct (subset Q (tree_vars t k)) eqn:S; [left; exists k; split; [left; reflexivity|apply subset_spec, S]|].
    destruct IH as [(k' & A & B)|N]; [left; exists k'; split; [right; exact A|exact B]|]. right. intros (k' & [<-|A] & B).
    - apply subset_spec in B. congruence.
    - apply N. exists k'. auto. }
  destruct D as [A|N]; split; split.
  - auto. - auto.
  - destruct (A1 A) as (f & ->). discriminate.
  - intros [_ N]. contradiction.
  - rewrite (A2 N). intros (f & X). discriminate.
  - intros A. contradiction.
  - rewrite (A2 N). intros X. inversion X. auto.
  - intros [-> _]. exact (A2 N).
Qed.

(** ** set_evidence *)
Section Evidence.
Variable b : bn.
Hypothesis WB : wf_bn b.
Hypothesis NN : nonneg_bn b.
Variable post : bool.
Notation dom := (values_of b).
Notation U := (bnames b).

Lemma argmax_all_zero q r m : q <> [] -> Forall (fun x => 0 <= x)%Qc q -> argmax q = Some (r, m) -> m = 0%Qc -> Forall (eq 0%Qc) q /\ r = 0.
Proof.
  intros N F A ->. destruct (argmax_spec q N) as (r' & E & L & M). rewrite A in E. injection E as <- E.
  assert (Z : Forall (eq 0%Qc) q).
  { apply Forall_forall. intros x Hx. specialize (M x Hx). rewrite <- E in M. rewrite Forall_forall in F. apply Qcle_antisym; [apply F, Hx|exact M]. }
  split; [exact Z|]. destruct q as [|x q]; [contradiction|]. cbn in A. injection A as A.
  assert (G : forall l i bi bv, Forall (eq 0%Qc) l -> bv = 0%Qc -> argmax_from i bi bv l = (bi, 0%Qc)).
  { clear. induction l as [|y l IH]; intros i bi bv F ->; cbn; [reflexivity|]. apply Forall_cons_iff in F as [<- F]. cbn. apply IH; auto. }
  apply Forall_cons_iff in Z as [Zx Z]. rewrite G in A by (try exact Z; congruence). congruence.
Qed.

Lemma argmax_zero q : q <> [] -> Forall (eq 0%Qc) q -> argmax q = Some (0, 0%Qc).
Proof.
  intros N Z. destruct q as [|x q]; [contradiction|]. cbn. f_equal.
  assert (G : forall l i bi bv, Forall (eq 0%Qc) l -> bv = 0%Qc -> argmax_from i bi bv l = (bi, 0%Qc)).
  { clear. induction l as [|y l IH]; intros i bi bv F ->; cbn; [reflexivity|]. apply Forall_cons_iff in F as [<- F]. cbn. apply IH; auto. }
  apply Forall_cons_iff in Z as [Zx Z]. apply G; [exact Z|congruence].
Qed.

(** One item, given what the tree knows beforehand. *)
Lemma item_outcome v e (d : dict (list Qc)) : match e with Soft q => Forall (fun x => 0 <= x)%Qc q | Hard _ => True end ->
  (In v U -> dget v d = if post then Some (prior b v) else None) ->
  (exists x, item_fault b post v e x /\ forall t, add_tree_evidence b d (v, e) t = (t, Err x)) \/
  ((forall x, ~ item_fault b post v e x) /\ In v U /\ exists e', match e' with Hard x => In x (dom v) | Soft l => length l = length (dom v) /\ Forall (fun x => 0 <= x)%Qc l end /\
     forall t, add_tree_evidence b d (v, e) t = add_tree_evidence b [] (v, e') t).
Proof.
  intros Nq Hd. destruct (In_dec_s v U) as [Hv|Hv].
  2: { left. exists PlainException. split; [apply I_unknown, Hv|]. intros t. unfold add_tree_evidence. cbn [fst snd].
       assert (E : get_node b v = Err PlainException).
       { unfold get_node. destruct (find _ (bnodes b)) as [n|] eqn:EF; [|reflexivity]. exfalso. apply Hv.
         apply find_some in EF as [EF1 EF2]. apply String.eqb_eq in EF2. subst v. apply in_map, EF1. }
       rewrite E. reflexivity. }
  specialize (Hd Hv). destruct (in_bnames b v Hv) as (n & Hn & En).
  assert (VN := values_of_node b WB n Hn). rewrite En in VN.
  assert (GN := get_node_ok b WB n Hn). rewrite En in GN.
  assert (NE : dom v <> []) by (rewrite VN; apply (wn_values _ _ (wb_nodes _ WB n Hn))).
  destruct e as [x|q].
  - destruct (In_dec_s x (dom v)) as [Hx|Hx].
    + right. split; [|split; [exact Hv|exists (Hard x); split; [exact Hx|reflexivity]]].
      intros y F. inversion F; try contradiction; discriminate.
    + left. exists ValueError. split; [apply I_improper; assumption|]. intros t. unfold add_tree_evidence, as_evidence. cbn [fst snd].
      rewrite GN. cbn [rbind]. rewrite <- VN, (proj2 (index_of_None _ _) Hx). reflexivity.
  - destruct (Nat.eq_dec (length q) (length (dom v))) as [Lq|Lq].
    2: { left. exists ValueError. split; [apply I_improper; assumption|]. intros t. unfold add_tree_evidence, as_evidence. cbn [fst snd].
         rewrite GN. cbn [rbind]. rewrite <- VN, (proj2 (Nat.eqb_neq _ _) Lq). reflexivity. }
    assert (Qn : q <> []) by (intros ->; destruct (dom v); [contradiction|discriminate]).
    destruct post eqn:EP.
    2: { right. split; [|split; [exact Hv|exists (Soft q); split; [auto|]]].
         - intros y F. inversion F; try contradiction; discriminate.
         - intros t. unfold add_tree_evidence. cbn [fst snd]. rewrite Hd. reflexivity. }
    assert (Lp : length (prior b v) = length (dom v)) by (unfold prior; apply map_length).
    destruct (argmax_spec q Qn) as (r & A & Lr & _). set (m := nth r q 0%Qc) in *.
    destruct (proj2 (soft_outcome v (dom v) q (prior b v) Lq Lp) r m A) as [(Z & (i & Ni & Li & Pi) & E)|(Z & f & E)].
    + left. exists NonFinite. destruct (argmax_all_zero q r m Qn Nq A Z) as [AZ ->]. split; [apply (I_zero _ _ _ _ q i); auto; lia|].
      intros t. unfold add_tree_evidence. cbn [fst snd]. rewrite GN. cbn [rbind]. rewrite Hd, <- VN, E. reflexivity.
    + right. split; [|split; [exact Hv|]].
      * intros y F. inversion F as [X|_ X|q' i _ Eq _ _ AZ Li Pi]; [contradiction|contradiction|]. injection Eq as <-. apply Z.
        assert (A' := argmax_zero q Qn AZ). rewrite A in A'. injection A' as -> Em. split; [exact Em|]. exists i. split; [lia|]. split; [lia|exact Pi].
      * unfold as_evidence in E. rewrite (proj2 (Nat.eqb_eq _ _) Lq) in E. destruct (soft_ratio q (prior b v)) as [l|] eqn:ES; [|discriminate].
        destruct (soft_ratio_nonneg q (prior b v) l Nq (prior_nonneg b WB NN v) ES) as [Ll Nl].
        exists (Soft l). split; [split; [congruence|exact Nl]|]. intros t. unfold add_tree_evidence, as_evidence. cbn [fst snd]. rewrite GN. cbn [rbind].
        rewrite Hd, <- VN, (proj2 (Nat.eqb_eq _ _) Lq), ES. cbn [rbind dget]. rewrite Ll, Lq, Nat.eqb_refl. reflexivity.
Qed.

Lemma items_outcome (d : dict (list Qc)) ev : NoDup (dkeys ev) -> weights_ok ev -> (forall v, In v (dkeys ev) -> In v U -> dget v d = if post then Some (prior b v) else None) ->
  (exists ev', ev_ok b ev' /\ incl (dkeys ev') U /\ dkeys ev' = dkeys ev /\ (forall w y z, In (w, y) ev -> ~ item_fault b post w y z) /\
     forall t, each (add_tree_evidence b d) ev t = each (add_tree_evidence b []) ev' t) \/
  (exists l v e l' x, ev = l ++ (v, e) :: l' /\ (forall w y z, In (w, y) l -> ~ item_fault b post w y z) /\ item_fault b post v e x /\
     forall t, snd (each (add_tree_evidence b d) l t) = Ok tt -> snd (each (add_tree_evidence b d) ev t) = Err x).
Proof.
  induction ev as [|[v e] ev IH]; intros ND W Hd.
  - left. exists []. split; [apply ev_nil|]. split; [intros ? []|]. split; [reflexivity|]. split; [intros ? ? ? []|reflexivity].
  - cbn in ND. apply NoDup_cons_iff in ND as [Nv ND].
    assert (We : match e with Soft q => Forall (fun x => 0 <= x)%Qc q | Hard _ => True end) by (destruct e; [exact I|]; apply (W v); left; reflexivity).
    destruct (item_outcome v e d We (Hd v (or_introl eq_refl))) as [(x & F & E)|(F & Hv & e' & OK & E)].
    + right. exists [], v, e, ev, x. split; [reflexivity|]. split; [intros ? ? ? []|]. split; [exact F|]. intros t _. cbn [each]. rewrite E. reflexivity.
    + destruct IH as [(ev' & EV' & K' & KE & NF & Ee)|(l & v1 & e1 & l' & x & El & NF & F1 & Ee)].
      * exact ND. * intros w q Hw. apply (W w). right; exact Hw. * intros w Hw. apply Hd. right; exact Hw.
      * left. exists ((v, e') :: ev'). split; [|split; [|split; [|split]]].
        -- split; [change (NoDup (v :: dkeys ev')); rewrite KE; constructor; assumption|]. intros w y [X|X] Hw; [injection X as <- <-; exact OK|]. exact (proj2 EV' w y X Hw).
        -- intros w [<-|Hw]; [exact Hv|apply K', Hw].
        -- change (v :: dkeys ev' = v :: dkeys ev). rewrite KE. reflexivity.
        -- intros w y z [X|X]; [injection X as <- <-; apply F|exact (NF w y z X)].
        -- intros t. cbn [each]. rewrite E. destruct (add_tree_evidence b [] (v, e') t) as [t1 [u|x]]; [apply Ee|reflexivity].
      * right. exists ((v, e) :: l), v1, e1, l', x. split; [rewrite El; reflexivity|]. split; [|split; [exact F1|]].
        -- intros w y z [X|X]; [injection X as <- <-; apply F|exact (NF w y z X)].
        -- intros t. cbn [each]. destruct (add_tree_evidence b d (v, e) t) as [t1 [u|y]]; [apply Ee|discriminate].
Qed.

Lemma cons_inj {A} (x y : A) l l' : x :: l = y :: l' -> x = y /\ l = l'.
Proof. intros H. injection H. auto. Qed.

Lemma fault_first l v e l' x ev : ev = l ++ (v, e) :: l' -> (forall w y z, In (w, y) l -> ~ item_fault b post w y z) -> item_fault b post v e x ->
  (post = true -> incl (dkeys ev) U) -> forall y, evidence_fault b post ev y -> y = x.
Proof.
  intros El NF F K y EF. inversion EF as [w P Hw Nw|l1 v1 e1 l1' x1 K1 El1 NF1 F1]; [exfalso; apply Nw, (K P), Hw|]. subst x1.
  assert (X : (v1, e1) = (v, e)).
  { clear EF. subst ev. clear K K1. revert l1 El1 NF1. induction l as [|a l IH]; intros [|a1 l1] El1 NF1; cbn [app] in El1; apply cons_inj in El1 as [EQ El1].
    - symmetry. exact EQ.
    - subst a1. exfalso. exact (NF1 v e x (or_introl eq_refl) F).
    - subst a. exfalso. exact (NF v1 e1 y (or_introl eq_refl) F1).
    - apply (IH (fun w y z H => NF w y z (or_intror H)) l1 El1). intros w y' z H. apply NF1. right; exact H. }
  injection X as -> ->. inversion F; inversion F1; subst; try congruence; try contradiction;
    match goal with H : improper _ _ (Soft _) |- _ => exfalso; cbn in H; congruence | _ => idtac end;
    match goal with H : Soft _ = Soft _ |- _ => injection H as -> | _ => idtac end; exfalso; cbn in *; congruence.
Qed.

Lemma old_unknown vs : (exists v, In v vs /\ ~ In v U) -> forall t r sv, holds b t r sv (iweight b []) -> snd (old_marginals vs t) = Err ValueError.
Proof.
  induction vs as [|v vs IH]; intros (w & Hw & Nw) t r sv H; [destruct Hw|]. cbn [old_marginals].
  destruct (marginals_holds b WB t r sv [] [v] NN (ev_nil b) H) as [H' Q].
  destruct (In_dec_s v U) as [Hv|Hv].
  - destruct Q as (f & Ef & _); [constructor; [tauto|constructor]|apply (name_in_clique b t r sv); [apply H|exact Hv]|].
    destruct (tmarginals t [v]) as [t1 m]. cbn [fst snd] in *. subst m.
    specialize (IH (ex_intro _ w (conj (match Hw with or_introl X => False_ind _ (Nw (eq_ind v (fun z => In z U) Hv w X)) | or_intror X => X end) Nw)) t1 r sv H').
    destruct (old_marginals vs t1) as [t2 [d|x]]; [discriminate|exact IH].
  - assert (X : snd (tmarginals t [v]) = Err ValueError).
    { assert (NA : forall t', skel t' = skel t -> find (fun p => subset [v] (cvars (snd p))) (tnodes t') = None).
      { intros t' S. apply (unanswered t t' [v] S); [|apply H]. intros A. apply answers_in_clique in A. destruct A as (k & I & _). apply Hv, (jo_U _ _ _ _ (proj1 H) k), I. left; reflexivity. }
      destruct (calc_holds b WB t r sv [] NN (ev_nil b) H) as (t' & E & _ & _). assert (SK := skel_calc t). rewrite E in SK. cbn [fst] in SK.
      unfold tmarginals. destruct (tvalid t); [|rewrite E]; cbn [snd]; [rewrite (NA t eq_refl)|rewrite (NA t' SK)]; reflexivity. }
    destruct (tmarginals t [v]) as [t1 m]. cbn [snd] in X. subst m. reflexivity.
Qed.

Lemma loaded_outcome (d : dict (list Qc)) ev t r sv : NoDup (dkeys ev) -> weights_ok ev -> jt_ok b t r sv -> loaded b t (iweight b []) ->
  (post = true -> incl (dkeys ev) U) ->
  (forall v, In v (dkeys ev) -> In v U -> dget v d = if post then Some (prior b v) else None) ->
  let out := match each (add_tree_evidence b d) ev t with (t3, Ok _) => calculate_messages t3 | (t3, Err e) => (t3, Err e) end in
  forall x, snd out = Err x <-> evidence_fault b post ev x.
Proof.
  intros ND W J L K Hd out x.
  assert (GO : forall ev', ev_ok b ev' -> incl (dkeys ev') U -> exists t5 t6, each (add_tree_evidence b []) ev' t = (t5, Ok tt) /\ calculate_messages t5 = (t6, Ok tt)).
  { intros ev' EV' K'. destruct (each_evidence b WB ev' ev' EV' (incl_refl _) K' t r sv _ J L) as (t5 & E5 & S5 & V5 & L5).
    assert (J5 : jt_ok b t5 r sv) by (eapply jt_ok_same; [reflexivity|symmetry; exact S5|exact J]).
    destruct (calculate_calibrates b WB t5 r sv (iweight b ev') J5) as (t6 & E6 & _).
    { eapply loaded_ext; [exact L5|]. intros a Ra. cbn beta. rewrite <- (iweight_nil b WB a). apply iweight_split; assumption. }
    eauto. }
  destruct (items_outcome d ev ND W Hd) as [(ev' & EV' & K' & _ & NF & E)|(l & v & e & l' & y & El & NF & F & E)].
  - destruct (GO ev' EV' K') as (t5 & t6 & E5 & E6). unfold out. rewrite E, E5, E6. cbn [snd]. split; [discriminate|].
    intros EF. exfalso. inversion EF as [w P Hw Nw|l1 v1 e1 l1' x1 K1 El1 NF1 F1]; [apply Nw, (K P), Hw|].
    apply (NF v1 e1 x); [subst ev; apply in_elt|exact F1].
  - assert (X : snd (each (add_tree_evidence b d) ev t) = Err y).
    { apply E. destruct (items_outcome d l) as [(ev' & EV' & K' & _ & _ & E')|(l1 & v1 & e1 & l1' & y1 & El1 & _ & F1 & _)].
      - subst ev. unfold dkeys in ND |- *. rewrite map_app in ND. apply NoDup_app_l in ND. exact ND.
      - intros w q Hw. apply (W w). subst ev. apply in_or_app. left; exact Hw.
      - intros w Hw. apply Hd. subst ev. unfold dkeys in *. rewrite map_app. apply in_or_app. left; exact Hw.
      - destruct (GO ev' EV' K') as (t5 & _ & E5 & _). rewrite E', E5. reflexivity.
      - exfalso. apply (NF v1 e1 y1); [subst l; apply in_elt|exact F1]. }
    unfold out. destruct (each (add_tree_evidence b d) ev t) as [t3 [u|z]]; cbn [snd] in X; [discriminate|]. injection X as ->. cbn [snd]. split.
    + intros [= <-]. apply (E_item _ _ _ l v e l'); assumption.
    + intros EF. f_equal. symmetry. exact (fault_first l v e l' y ev El NF F K x EF).
Qed.
End Evidence.

Lemma set_evidence_outcome b0 t k b ev post x : reaches b0 t k -> same_arcs b0 b -> wf_bn b -> nonneg_bn b -> NoDup (dkeys ev) -> weights_ok ev ->
  (snd (set_evidence b ev post t) = Err x <-> evidence_fault b post ev x).
Proof.
  intros R SA WB NN ND W. destruct (history _ _ _ R) as [(r & sv & J0) _]. assert (F := same_arcs_families _ _ SA).
  assert (J : jt_ok b t r sv) by (eapply jt_ok_same; [exact F|reflexivity|exact J0]).
  destruct (reset_loaded b WB t r sv NN J) as (t1 & E1 & S1 & V1 & L1).
  assert (J1 : jt_ok b t1 r sv) by (eapply jt_ok_same; [reflexivity|symmetry; exact S1|exact J]).
  assert (L1' : loaded b t1 (iweight b [])) by (eapply loaded_ext; [exact L1|]; intros a _; apply iweight_nil, WB).
  assert (H1 : holds b t1 r sv (iweight b [])) by (split; [exact J1|right; auto]).
  unfold set_evidence. rewrite E1. destruct post.
  - destruct (calc_holds b WB t1 r sv [] NN (ev_nil b) H1) as (t2 & E2 & H2 & V2). rewrite E2.
    destruct (subset (dkeys ev) (bnames b)) eqn:KS.
    + apply subset_spec in KS. destruct (old_marginals_ok b WB NN (dkeys ev) KS t2 r sv H2) as (t3 & E3 & H3). rewrite E3.
      destruct (reset_loaded b WB t3 r sv NN (proj1 H3)) as (t4 & E4 & S4 & V4 & L4). rewrite E4.
      assert (J4 : jt_ok b t4 r sv) by (eapply jt_ok_same; [reflexivity|symmetry; exact S4|apply H3]).
      apply (loaded_outcome b WB NN true (map (fun v => (v, prior b v)) (dkeys ev)) ev t4 r sv ND W J4).
      * eapply loaded_ext; [exact L4|]. intros a _. apply iweight_nil, WB.
      * auto.
      * intros v Hv _. clear - Hv. induction (dkeys ev) as [|w l IH]; [contradiction|]. cbn.
        destruct (String.eqb_spec v w) as [->|N]; [reflexivity|]. apply IH. destruct Hv; [congruence|assumption].
    + assert (X : exists v, In v (dkeys ev) /\ ~ In v (bnames b)).
      { revert KS. unfold subset. generalize (dkeys ev). induction l as [|w l IH]; cbn; [discriminate|]. destruct (mem w (bnames b)) eqn:M; cbn.
        - intros K. destruct (IH K) as (v & A & B). eauto.
        - intros _. exists w. split; [auto|]. apply mem_nIn, M. }
      assert (Y := old_unknown b WB NN (dkeys ev) X t2 r sv H2). destruct (old_marginals (dkeys ev) t2) as [t3 [d|y]]; cbn [snd] in Y; [discriminate|].
      injection Y as ->. cbn [snd]. destruct X as (v & Hv & Nv). split.
      * intros [= <-]. apply (E_prior _ _ _ v); auto.
      * intros EF. inversion EF as [? ? ? ?|? ? ? ? ? K1]; [reflexivity|]. exfalso. apply Nv, K1, Hv. reflexivity.
  - apply (loaded_outcome b WB NN false [] ev t1 r sv ND W J1 L1'); [discriminate|reflexivity].
Qed.
End Create.
