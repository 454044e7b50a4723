(** The join tree of a network of several components. *)
From Verif Require Import Base BaseFacts NDArray NDArrayFacts SumCalc Factor FactorFacts Exact Spec SpecFacts VEProof VEProof2
  Order OrderSpec OrderProof JoinTree HuginPure Hugin JTProof JTProof2 JTBuild JTBuild2 JTBuild3 TreeSpec JTTop SepSpec SepRelevant
  PartSpec PartGraph PartTree PartOps DecNorm.

Lemma filter_flat_map_in {A B} (f : A -> list B) (p : A -> bool) (q : B -> bool) l : (forall a x, In a l -> In x (f a) -> q x = p a) ->
  filter q (flat_map f l) = flat_map f (filter p l).
Proof.
  induction l as [|a l IH]; intros H; cbn; [reflexivity|]. rewrite filter_app, IH by (intros; apply H; auto; now right).
  assert (X : filter q (f a) = if p a then f a else []).
  { assert (Y : forall x, In x (f a) -> q x = p a) by (intros; apply H; auto; now left). revert Y. generalize (f a). intros m Y.
    induction m as [|x m IHm]; cbn; [destruct (p a); reflexivity|]. rewrite (Y x) by now left. rewrite IHm by (intros; apply Y; now right).
    destruct (p a); reflexivity. }
  rewrite X. destruct (p a); reflexivity.
Qed.

(** ** The moral graph *)
Section Moral.
Variable b : bn.
Hypothesis WB : wf_bn b.
Hypothesis EM : edges_match b.
Variable S : list string.
Hypothesis AP : apart b S.
Notation P := (fun v => mem v S).
Notation r := (restrict b S).

Lemma edge_side e : In e (bedges b) -> P (fst e) = P (snd e).
Proof.
  destruct e as [u v]. intros H. apply EM in H as (n & Hn & <- & Hu). cbn [fst snd]. symmetry. apply eq_true_iff_eq. rewrite !mem_In.
  apply (AP n u Hn Hu).
Qed.

Lemma pair_side n e : In n (bnodes b) -> In e (moral_pairs (dn_pdict n)) -> P (fst e) = P (dn_name n) /\ P (snd e) = P (dn_name n).
Proof.
  destruct e as [u v]. intros Hn H. apply moral_pairs_In in H as (Hu & Hv & _). cbn [fst snd].
  assert (PP := wn_pdict _ _ (wb_nodes _ WB n Hn)). apply (Permutation_in u PP) in Hu. apply (Permutation_in v PP) in Hv.
  split; apply eq_true_iff_eq; rewrite !mem_In; symmetry; apply (AP n); assumption.
Qed.

Lemma out_edges_part u : In u (border r) ->
  filter (fun e => String.eqb (fst e) u) (bedges r) = filter (fun e => String.eqb (fst e) u) (bedges b).
Proof.
  intros Hu. cbn [restrict border] in Hu. apply filter_In in Hu as [_ Hu]. cbn [restrict bedges].
  assert (G : forall l, (forall e, In e l -> In e (bedges b)) ->
    filter (fun e => String.eqb (fst e) u) (filter (fun e => mem (fst e) S && mem (snd e) S) l) = filter (fun e => String.eqb (fst e) u) l).
  { induction l as [|e l IH]; intros I; cbn; [reflexivity|]. assert (IH' := IH (fun e H => I e (or_intror H))).
    assert (X := edge_side e (I e (or_introl eq_refl))). cbn beta in X. destruct (String.eqb (fst e) u) eqn:E.
    - apply String.eqb_eq in E as E1. rewrite E1 in X. rewrite E1, <- X, Hu. cbn. rewrite E. now f_equal.
    - destruct (mem (fst e) S && mem (snd e) S); [|exact IH']. cbn. rewrite E. exact IH'. }
  apply G. auto.
Qed.

Lemma undirected_part : to_undirected r = dpart P (to_undirected b).
Proof.
  unfold to_undirected. rewrite dpart_edges.
  2: { intros e H. apply in_flat_map in H as (u & _ & H). apply filter_In in H as [H _]. apply edge_side, H. }
  f_equal.
  - rewrite (filter_flat_map _ P (both P)).
    + cbn [restrict border]. rewrite !flat_map_concat_map. f_equal. apply map_ext_in. intros u Hu. exact (out_edges_part u Hu).
    + intros u x Hx. apply filter_In in Hx as [_ Hx]. apply String.eqb_eq in Hx. unfold both. now rewrite Hx.
  - cbn [restrict border]. unfold dpart. symmetry. apply (filter_map_comm (fun v : string => (v, @nil string)) (fun p => P (fst p))).
Qed.

Lemma moral_part : moral_graph r = dpart P (moral_graph b).
Proof.
  unfold moral_graph. rewrite dpart_edges.
  2: { intros e H. apply in_flat_map in H as (n & Hn & H). destruct (pair_side n e Hn H) as [-> ->]. reflexivity. }
  f_equal; [|apply undirected_part].
  cbn [restrict bnodes]. symmetry. apply filter_flat_map_in. intros n x Hn Hx. apply (pair_side n x Hn Hx).
Qed.

Lemma apart_moral : apart_edges P (moral_graph b).
Proof.
  unfold moral_graph. apply apart_fold.
  - intros e H. apply in_flat_map in H as (n & Hn & H). destruct (pair_side n e Hn H) as [-> ->]. reflexivity.
  - unfold to_undirected. apply apart_fold.
    + intros e H. apply in_flat_map in H as (u & _ & H). apply filter_In in H as [H _]. apply edge_side, H.
    + intros k l w H Hw. apply in_map_iff in H as (v & E & _). inversion E; subst. destruct Hw.
Qed.
End Moral.

Lemma last_app_ne {A} (l m : list A) x : m <> [] -> last (l ++ m) x = last m x.
Proof.
  intros N. induction l as [|y l IH]; [reflexivity|]. cbn [app]. destruct (l ++ m) as [|z q] eqn:E; [|exact IH].
  apply app_eq_nil in E as [_ E]. contradiction.
Qed.

(** ** Pruning never fails, and the last cluster stays in its component. *)
Lemma prune_goes (h : list string -> bool) cs : NoDup cs -> (forall c d, In c cs -> In d cs -> subset c d = true -> h c = h d) ->
  exists L, prune cs = Ok L /\ NoDup L /\ h (last L []) = h (last cs []).
Proof.
  intros ND HS. unfold prune, swaps.
  assert (G : forall pre L, (exists post, cs = pre ++ post) -> NoDup L -> incl pre L ->
    exists L', foldM swap1 (rev (swaps_up [] pre)) L = Ok L' /\ NoDup L' /\ h (last L' []) = h (last L [])).
  { induction pre as [|c pre IH] using rev_ind; intros L (post & E) NL I.
    - exists L. auto.
    - rewrite swaps_up_app, rev_app_distr. cbn [swaps_up app]. rewrite app_nil_r. rewrite <- app_assoc in E. cbn [app] in E.
      assert (HcL : In c L) by (apply I, in_elt).
      destruct (last_superset c pre) as [d|] eqn:EL; cbn [rev app foldM].
      + destruct (last_superset_spec _ _ _ EL) as (b1 & b2 & Eb & Icd & _).
        assert (Hd : In d pre) by (rewrite Eb; apply in_elt).
        assert (Ncd : c <> d).
        { intros <-. rewrite E in ND. apply NoDup_remove_2 in ND. apply ND, in_or_app. auto. }
        assert (Hh : h c = h d).
        { apply HS; [rewrite E; apply in_elt|rewrite E; apply in_or_app; auto|apply subset_spec; exact Icd]. }
        assert (HdL : In d L) by (apply I, in_or_app; auto).
        assert (X : exists A D, swap1 L (c, d) = Ok (A ++ d :: D) /\ Permutation L (c :: A ++ d :: D) /\
          (D = [] -> last L [] = c \/ last L [] = d) /\ (D <> [] -> last L [] = last D [])).
        { apply in_split in HcL as (A & D & ->). apply in_app_or in HdL as [HM|[HM|HM]]; [|congruence|].
          - apply in_split in HM as (A1 & A2 & ->). rewrite <- app_assoc in *. cbn [app] in *.
            exists (A1 ++ A2), D. rewrite <- app_assoc. split; [apply swap1_before, NL|]. split; [|split].
            + transitivity (A1 ++ c :: d :: A2 ++ D).
              * apply Permutation_app_head. rewrite perm_swap. apply perm_skip. symmetry; apply Permutation_middle.
              * rewrite <- Permutation_middle. apply perm_skip. apply Permutation_app_head. apply Permutation_middle.
            + intros ->. left. replace (A1 ++ d :: A2 ++ [c]) with ((A1 ++ d :: A2) ++ [c]) by (rewrite <- app_assoc; reflexivity). apply last_last.
            + intros ND0. replace (A1 ++ d :: A2 ++ c :: D) with ((A1 ++ d :: A2 ++ [c]) ++ D) by (repeat (rewrite <- app_assoc; cbn); reflexivity).
              apply last_app_ne, ND0.
          - apply in_split in HM as (D1 & D2 & ->). exists (A ++ D1), D2. rewrite <- app_assoc. split; [apply swap1_after, NL|]. split; [|split].
            + symmetry; apply Permutation_middle.
            + intros ->. right. replace (A ++ c :: D1 ++ [d]) with ((A ++ c :: D1) ++ [d]) by (rewrite <- app_assoc; reflexivity). apply last_last.
            + intros ND0. replace (A ++ c :: D1 ++ d :: D2) with ((A ++ c :: D1 ++ [d]) ++ D2) by (repeat (rewrite <- app_assoc; cbn); reflexivity).
              apply last_app_ne, ND0. }
        destruct X as (A & D & E1 & PL & L1 & L2). rewrite E1. cbn [rbind].
        destruct (IH (A ++ d :: D)) as (L' & E' & N' & H').
        { exists (c :: post); exact E. }
        { apply (Permutation_NoDup PL) in NL. inversion NL; assumption. }
        { intros x Hx. assert (Hx' : In x L) by (apply I, in_or_app; auto). apply (Permutation_in x PL) in Hx' as [<-|Hx']; [|exact Hx'].
          exfalso. rewrite E in ND. apply NoDup_remove_2 in ND. apply ND, in_or_app. auto. }
        exists L'. split; [exact E'|]. split; [exact N'|]. rewrite H'. destruct D as [|x D].
        * rewrite last_last. destruct (L1 eq_refl) as [-> | ->]; congruence.
        * rewrite (last_app_ne A (d :: x :: D)) by discriminate. rewrite L2 by discriminate. reflexivity.
      + destruct (IH L) as (L' & E' & R); [exists (c :: post); exact E|exact NL|intros x Hx; apply I, in_or_app; auto|]. exists L'. auto. }
  apply (G cs cs); [exists []; now rewrite app_nil_r|exact ND|apply incl_refl].
Qed.

(** ** The tree *)
Lemma jtree_eta t : t = mkT (tnodes t) (tadj t) (tedges t) (tvalid t).
Proof. destruct t; reflexivity. Qed.

Section Tree.
Variable P : string -> bool.
Variable K : string -> bool.
Notation here := (here P).
Notation uniform := (uniform P).

Lemma tpart_clique k c t : tpart K (add_clique k c t) = if K k then add_clique k c (tpart K t) else tpart K t.
Proof. unfold tpart, add_clique; cbn [tnodes tadj tedges tvalid]. rewrite dpart_set, dpart_ensure. destruct (K k); reflexivity. Qed.

Lemma tpart_sep u v d t : K u = K v -> tpart K (add_sep u v d t) = if K u then add_sep u v d (tpart K t) else tpart K t.
Proof.
  intros E. unfold tpart, add_sep; cbn [tnodes tadj tedges tvalid]. rewrite dpart_add_uedge, eset_part by exact E. destruct (K u); reflexivity.
Qed.

Lemma jprop_part c post : uniform c -> Forall uniform post -> here c = true -> jprop c (filter here post) = jprop c post.
Proof.
  intros U UP H. unfold jprop. apply filter_ext_in. intros v Hv. rewrite Forall_forall in UP. apply eq_true_iff_eq. rewrite !existsb_exists.
  split; intros (d & Hd & M); exists d; (split; [|exact M]).
  - apply filter_In in Hd. tauto.
  - apply filter_In. split; [exact Hd|]. rewrite <- (uniform_here P d v (UP d Hd)), (uniform_here P c v U Hv); [exact H|apply mem_In, M].
Qed.

Lemma jprop_side c post d v s : uniform c -> uniform d -> jprop c post = v :: s -> subset (v :: s) d = true -> here d = here c.
Proof.
  intros Uc Ud E H. apply subset_spec in H. rewrite <- (uniform_here P d v Ud) by (apply H; now left).
  apply (uniform_here P c v Uc). assert (X : In v (jprop c post)) by (rewrite E; now left). apply filter_In in X. tauto.
Qed.

Lemma find_part (F : list string -> bool) post : (forall d, In d post -> F d = true -> here d = true) -> find F (filter here post) = find F post.
Proof.
  intros H. induction post as [|d post IH]; [reflexivity|]. cbn. assert (IH' := IH (fun d Hd => H d (or_intror Hd))).
  destruct (here d) eqn:E; cbn; [destruct (F d); [reflexivity|exact IH']|].
  destruct (F d) eqn:EF; [|exact IH']. rewrite (H d (or_introl eq_refl) EF) in E. discriminate.
Qed.

Lemma build_part L : Forall uniform L -> (forall c, In c L -> K (key_of c) = here c) -> tpart K (build_tree L) = build_tree (filter here L).
Proof.
  induction L as [|c post IH]; intros U HK; [reflexivity|]. inversion U as [|? ? Uc UP]; subst.
  assert (IH' := IH UP (fun d Hd => HK d (or_intror Hd))). assert (Kc := HK c (or_introl eq_refl)). cbn [build_tree filter].
  assert (UP' := UP). rewrite Forall_forall in UP'. destruct (jprop c post) as [|v s] eqn:EJ.
  - rewrite tpart_clique, Kc, IH'. destruct (here c) eqn:Hc; [|reflexivity]. cbn [build_tree]. rewrite jprop_part, EJ by assumption. reflexivity.
  - destruct (find (fun d => subset (v :: s) d) post) as [d|] eqn:EF.
    + assert (EF' := EF). apply find_some in EF' as [Hd Sd]. assert (X := jprop_side c post d v s Uc (UP' d Hd) EJ Sd).
      rewrite tpart_sep, tpart_clique, IH' by (rewrite Kc, HK, X by (now right); reflexivity). rewrite Kc. destruct (here c) eqn:Hc; [|reflexivity].
      cbn [build_tree]. rewrite jprop_part, EJ by assumption. rewrite find_part, EF; [reflexivity|].
      intros e He Se. rewrite (jprop_side c post e v s Uc (UP' e He) EJ Se). exact Hc.
    + rewrite tpart_clique, Kc, IH'. destruct (here c) eqn:Hc; [|reflexivity]. cbn [build_tree]. rewrite jprop_part, EJ by assumption.
      rewrite find_part, EF; [reflexivity|]. intros e He Se. rewrite (jprop_side c post e v s Uc (UP' e He) EJ Se). exact Hc.
Qed.

Lemma build_apart L : Forall uniform L -> (forall c, In c L -> K (key_of c) = here c) -> apart_edges K (tadj (build_tree L)).
Proof.
  induction L as [|c post IH]; intros U HK; [intros ? ? ? []|]. inversion U as [|? ? Uc UP]; subst.
  assert (IH' := IH UP (fun d Hd => HK d (or_intror Hd))). cbn [build_tree].
  assert (A : apart_edges K (tadj (add_clique (key_of c) (mkC c (trivial 1%Qc)) (build_tree post)))) by (apply apart_ensure, IH').
  destruct (jprop c post) as [|v s] eqn:EJ; [exact A|]. destruct (find (fun d => subset (v :: s) d) post) as [d|] eqn:EF; [|exact A].
  apply find_some in EF as [Hd Sd]. cbn [add_sep tadj]. apply apart_add_uedge; [|exact A].
  rewrite (HK c), (HK d) by (cbn; auto). symmetry. rewrite Forall_forall in UP. apply (jprop_side c post d v s Uc (UP d Hd) EJ Sd).
Qed.

Lemma build_nodes_in L k c : In (k, c) (tnodes (build_tree L)) -> exists d, In d L /\ k = key_of d /\ cvars c = d.
Proof.
  induction L as [|d post IH]; [intros []|]. intros H.
  assert (X : In (k, c) (dset (key_of d) (mkC d (trivial 1%Qc)) (tnodes (build_tree post)))).
  { cbn [build_tree] in H. destruct (jprop d post) as [|v s]; [exact H|]. destruct (find _ post); exact H. }
  apply dset_in in X as [[-> ->]|X]; [exists d; cbn; auto|]. destruct (IH X) as (e & He & E). exists e. split; [now right|exact E].
Qed.

Lemma build_nodes_get L c : NoDup (map key_of L) -> In c L -> dget (key_of c) (tnodes (build_tree L)) = Some (mkC c (trivial 1%Qc)).
Proof.
  induction L as [|d post IH]; [intros _ []|]. intros ND Hc. cbn in ND. inversion ND as [|? ? N ND']; subst.
  assert (X : tnodes (build_tree (d :: post)) = dset (key_of d) (mkC d (trivial 1%Qc)) (tnodes (build_tree post))).
  { cbn [build_tree]. destruct (jprop d post) as [|v s]; [reflexivity|]. destruct (find _ post); reflexivity. }
  rewrite X. destruct Hc as [->|Hc]; [apply dget_dset_eq|].
  rewrite dget_dset_neq; [apply IH; assumption|]. intros E. apply N. rewrite <- E. apply in_map, Hc.
Qed.

Lemma dset_first {A} k (x : A) d a l : dkeys d = a :: l -> exists l', dkeys (dset k x d) = a :: l'.
Proof. destruct d as [|[k' y] d]; [discriminate|]. cbn. intros E. injection E as -> _. destruct (String.eqb k a); cbn; eauto. Qed.

Lemma build_first L : L <> [] -> exists rest, dkeys (tnodes (build_tree L)) = key_of (last L []) :: rest.
Proof.
  induction L as [|d post IH]; [congruence|]. intros _.
  assert (X : tnodes (build_tree (d :: post)) = dset (key_of d) (mkC d (trivial 1%Qc)) (tnodes (build_tree post))).
  { cbn [build_tree]. destruct (jprop d post) as [|v s]; [reflexivity|]. destruct (find _ post); reflexivity. }
  rewrite X. destruct post as [|e post]; [cbn; eauto|]. destruct IH as (rest & E); [discriminate|]. apply (dset_first _ _ _ _ _ E).
Qed.
End Tree.
