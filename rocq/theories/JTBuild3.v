(** create_jointree on networks: the tree is a junction tree with all tables loaded. *)
From Coq Require Import Relations.
From Verif Require Import Base BaseFacts NDArray Factor FactorFacts Exact Spec SpecFacts VEProof VEProof2 Order OrderSpec OrderProof
  JoinTree HuginPure Hugin JTProof JTProof2 JTBuild JTBuild2 TreeSpec JTConnect.

(** ** Coverage *)
Section Cover.
Variables (b : bn) (t : jtree) (sv : string -> list string).
Notation cv := (cvo t).

Variable root : rtree.
Hypothesis J : rjt cv sv root.
Hypothesis ND : NoDup (rkeys root).
Hypothesis hub : forall k, In k (rkeys root) -> exists w, In w (cv k) /\ forall u, In u (cv k) ->
  exists F, In F (families b) /\ In w F /\ In u F.
Hypothesis homes : forall F, In F (families b) -> exists h, home t F = Some h /\ In h (rkeys root) /\ incl F (cv h).
Hypothesis anti : forall k k', In k (rkeys root) -> In k' (rkeys root) -> k <> k' -> ~ incl (cv k) (cv k').

Lemma cv_in_V x : rjt cv sv x -> forall h v, In h (rkeys x) -> In v (cv h) -> In v (V cv sv x).
Proof.
  induction x as [k cs IH] using rtree_ind'. intros Jx h v Hh Hv. cbn in Hh. destruct Hh as [<-|Hh].
  - cbn. apply in_or_app; auto.
  - apply in_flat_map in Hh as (c & Hc & Hh). rewrite Forall_forall in IH.
    assert (Jc : rjt cv sv c) by (apply rjt_inv in Jx; destruct Jx as (_ & _ & F & _); rewrite Forall_forall in F; auto).
    apply (V_child (fun _ => 0) cv sv k cs c Jx Hc). eapply IH; eauto.
Qed.

Definition local (x : rtree) : Prop := forall h u, In h (rkeys root) -> In u (allp cv sv x) -> In u (cv h) -> In h (rkeys x).

Lemma local_child k cs c : rjt cv sv (RT k cs) -> NoDup (rkeys (RT k cs)) -> local (RT k cs) -> In c cs -> local c.
Proof.
  intros Jx NDx L Hc h u Hh Hu Hv. apply in_split in Hc as (l1 & l2 & ->).
  assert (Hx : In h (rkeys (RT k (l1 ++ c :: l2)))).
  { apply (L h u Hh); [|exact Hv]. cbn. apply in_or_app; right. rewrite flat_map_app. cbn.
    apply in_or_app; right; apply in_or_app; auto. }
  assert (Hub : In u (flat_map (allp cv sv) (l1 ++ c :: l2))).
  { rewrite flat_map_app. cbn. apply in_or_app; right; apply in_or_app; auto. }
  destruct Hx as [<-|Hx]; [exfalso; exact (cv_not_below cv sv k _ u Jx Hv Hub)|].
  apply in_flat_map in Hx as (c' & Hc' & Hh').
  assert (Jx' := Jx). apply rjt_inv in Jx' as (_ & _ & F1 & F2 & N & _). rewrite Forall_forall in F1, F2.
  assert (D : forall c0, In c0 (l1 ++ l2) -> In c' [c0] -> False).
  { intros c0 Hc0 [<-|[]]. assert (Hc1 : In c0 (l1 ++ c :: l2)) by (apply in_app_or in Hc0 as [?|?]; apply in_or_app; cbn; auto).
    assert (HV := cv_in_V c0 (F1 c0 Hc1) h u Hh' Hv).
    apply (V_alt (fun _ => 0) cv sv c0 u (F1 c0 Hc1)) in HV as [HV|HV].
    - apply (F2 c0 Hc1) in HV. exact (cv_not_below cv sv k _ u Jx HV Hub).
    - assert (NB := below_NoDup cv sv k _ Jx). rewrite flat_map_app in NB. cbn in NB.
      apply in_app_or in Hc0 as [Hc0|Hc0].
      + apply (NoDup_app_no _ _ u NB); [apply in_flat_map; eauto|]. apply in_or_app; auto.
      + apply NoDup_app_r in NB. apply (NoDup_app_no _ _ u NB Hu). apply in_flat_map; eauto. }
  apply in_app_or in Hc' as [Hc'|[Hc'|Hc']].
  - exfalso. apply (D c'); [apply in_or_app; auto|left; reflexivity].
  - rewrite Hc'. exact Hh'.
  - exfalso. apply (D c'); [apply in_or_app; auto|left; reflexivity].
Qed.

(** Tables from below reach every clique on the way that has their variables. *)
Lemma scope_below x : rjt cv sv x -> forall F h v, In F (families b) -> home t F = Some h -> In h (rkeys x) -> incl F (cv h) ->
  In v F -> In v (cv (rkey x)) -> In v (scope_of sv (homed b t) x).
Proof.
  induction x as [k cs IH] using rtree_ind'. intros Jx F h v HF Eh Hh IF Hv Hk. cbn [rkey rkeys] in *. cbn [scope_of]. apply in_or_app.
  destruct Hh as [->|Hh]; [left; apply homed_In; eauto|right].
  apply in_flat_map in Hh as (c & Hc & Hh). apply in_flat_map. exists c. split; [exact Hc|].
  assert (Jx' := Jx). apply rjt_inv in Jx' as (_ & _ & F1 & _). rewrite Forall_forall in F1, IH. assert (Jc := F1 c Hc).
  assert (HV := cv_in_V c Jc h v Hh (IF v Hv)).
  assert (Sv : In v (sv (rkey c))).
  { apply (V_alt (fun _ => 0) cv sv c v Jc) in HV as [HV|HV]; [exact HV|exfalso].
    apply (cv_not_below cv sv k cs v Jx Hk). apply in_flat_map; eauto. }
  apply filter_In. split; [|apply mem_In, Sv]. apply (IH c Hc Jc F h v); try assumption.
  apply (rjt_sv_incl cv sv c Jc), Sv.
Qed.

(** Own families. *)
Hypothesis own : forall k v, In k (rkeys root) -> In v (cv k) -> exists F, In F (families b) /\ In v F.

Lemma scope_private x : rjt cv sv x -> local x -> forall u v F, In F (families b) -> In u F -> In v F ->
  In u (priv cv sv (rkey x)) -> In v (cv (rkey x)) -> In v (scope_of sv (homed b t) x).
Proof.
  intros Jx L u v F HF Hu Hv Pu Cv. destruct (homes F HF) as (h & Eh & Hh & IF).
  apply (scope_below x Jx F h v); try assumption.
  apply (L h u Hh); [|apply IF, Hu]. destruct x as [k cs]. cbn in *. apply in_or_app; auto.
Qed.

Lemma covered_from x : rjt cv sv x -> NoDup (rkeys x) -> local x -> incl (rkeys x) (rkeys root) ->
  seps_ne sv x -> covered b t sv x.
Proof.
  induction x as [k cs IH] using rtree_ind'. intros Jx NDx L I NS.
  assert (Hk : In k (rkeys root)) by (apply I; left; reflexivity).
  assert (Jx' := Jx). apply rjt_inv in Jx' as (_ & _ & F1 & F2 & N & _). rewrite Forall_forall in F1, F2, IH.
  inversion NS as [? ? NS1 NS2]; subst. rewrite Forall_forall in NS1, NS2.
  assert (Lc : forall c, In c cs -> local c) by (intros c Hc; apply (local_child k cs); assumption).
  assert (Ic : forall c, In c cs -> incl (rkeys c) (rkeys root)).
  { intros c Hc h Hh. apply I. cbn. right. apply in_flat_map; eauto. }
  constructor.
  - intros v Hv Nv. destruct (own k v Hk Hv) as (F & HF & HvF).
    apply (scope_private (RT k cs) Jx L v v F HF HvF HvF); [|exact Hv]. apply minus_In. auto.
  - apply Forall_forall. intros c Hc. assert (Jc := F1 c Hc).
    assert (Hck : In (rkey c) (rkeys c)) by (destruct c; left; reflexivity).
    assert (Hcr : In (rkey c) (rkeys root)) by (apply (Ic c Hc), Hck).
    assert (P : exists y, In y (priv cv sv (rkey c))).
    { destruct (priv cv sv (rkey c)) as [|y p] eqn:EP; [exfalso|exists y; left; reflexivity].
      apply (anti (rkey c) k Hcr Hk).
      - intros E2. cbn in NDx. inversion NDx as [|? ? NN _]; subst. apply NN, in_flat_map. eauto.
      - intros v Hv. destruct (cv_split cv sv _ v Hv) as [Hs|Hs]; [apply (F2 c Hc), Hs|]. rewrite EP in Hs. contradiction. }
    destruct P as (y & Py). assert (Cy : In y (cv (rkey c))) by (apply minus_In in Py; tauto).
    destruct (hub (rkey c) Hcr) as (w & Cw & HW).
    assert (SE : exists v, In v (sv (rkey c)) /\ In v (scope_of sv (homed b t) c)).
    { destruct (cv_split cv sv _ w Cw) as [Sw|Pw].
      - destruct (HW y Cy) as (F & HF & Fw & Fy). exists w. split; [exact Sw|].
        exact (scope_private c Jc (Lc c Hc) y w F HF Fy Fw Py Cw).
      - destruct (sv (rkey c)) as [|s l] eqn:Es; [exfalso; exact (NS1 c Hc Es)|].
        assert (Hs : In s (sv (rkey c))) by (rewrite Es; left; reflexivity).
        assert (Cs : In s (cv (rkey c))) by (apply (rjt_sv_incl cv sv c Jc), Hs).
        destruct (HW s Cs) as (F & HF & Fw & Fs). exists s. split; [left; reflexivity|].
        exact (scope_private c Jc (Lc c Hc) w s F HF Fw Fs Pw Cs). }
    destruct SE as (v & Sv & Hv). intros E. assert (K : In v (msc sv (homed b t) c)) by (apply filter_In; split; [exact Hv|apply mem_In, Sv]).
    rewrite E in K. destruct K.
  - apply Forall_forall. intros c Hc. apply IH; [exact Hc|apply F1, Hc| |apply Lc, Hc|apply Ic, Hc|apply NS2, Hc].
    cbn in NDx. inversion NDx as [|? ? _ N2]; subst. apply in_split in Hc as (l1 & l2 & ->).
    rewrite flat_map_app in N2. cbn in N2. apply NoDup_app_r, NoDup_app_l in N2. exact N2.
Qed.

Lemma covered_root : seps_ne sv root -> covered b t sv root.
Proof.
  intros E. apply covered_from; try assumption.
  - intros h u Hh _ _. exact Hh.
  - apply incl_refl.
Qed.
End Cover.

(** ** The moral graph *)
Lemma fold_edges_spec l g : ug g -> (forall u v, In (u, v) l -> In u (dkeys g) /\ In v (dkeys g) /\ u <> v) ->
  let g' := fold_left (fun g e => add_uedge (fst e) (snd e) g) l g in
  ug g' /\ dkeys g' = dkeys g /\ forall w x, In x (neighbours g' w) <-> In x (neighbours g w) \/ In (w, x) l \/ In (x, w) l.
Proof.
  revert g. induction l as [|[u v] l IH]; intros g G H; cbn.
  - split; [exact G|]. split; [reflexivity|]. intros; tauto.
  - destruct (H u v (or_introl eq_refl)) as (Hu & Hv & N).
    assert (K := add_uedge_keys u v g Hu Hv).
    destruct (IH (add_uedge u v g)) as (G' & K' & S').
    + apply add_uedge_ug; assumption.
    + intros x y Hxy. rewrite K. apply H; right; exact Hxy.
    + split; [exact G'|]. split; [etransitivity; [exact K'|exact K]|]. intros w x. rewrite S', (add_uedge_spec u v g w x Hu Hv).
      split; intros D; intuition (subst; auto); try (inversion H0; subst; auto).
Qed.

Lemma moral_pairs_In ps u v : In (u, v) (moral_pairs ps) <-> In u ps /\ In v ps /\ u <> v.
Proof.
  unfold moral_pairs. rewrite in_flat_map. split.
  - intros (p & Hp & H). apply in_map_iff in H as (q & E & Hq). inversion E; subst. apply filter_In in Hq as [Hq N].
    apply negb_true_iff, String.eqb_neq in N. auto.
  - intros (Hu & Hv & N). exists u. split; [exact Hu|]. apply in_map_iff. exists v. split; [reflexivity|].
    apply filter_In. split; [exact Hv|]. apply negb_true_iff, String.eqb_neq, N.
Qed.

Section Net.
Variable b : bn.
Hypothesis WB : wf_bn b.
Hypothesis WG : wf_graph b.
Hypothesis EM : edges_match b.

Lemma parent_name n p : In n (bnodes b) -> In p (map fst (dn_parents n)) -> In p (bnames b).
Proof.
  intros Hn Hp. apply in_map_iff in Hp as ([q vals] & <- & Hq).
  destruct (wn_pvals _ _ (wb_nodes _ WB n Hn) q vals Hq) as (m & Hm & <- & _). cbn. apply in_map, Hm.
Qed.

Lemma family_names F : In F (families b) -> incl F (bnames b).
Proof.
  intros HF. apply in_map_iff in HF as (n & <- & Hn). intros v [<-|Hv]; [apply in_map, Hn|eapply parent_name; eauto].
Qed.

Lemma interacts_names u v : interacts b u v -> In u (bnames b) /\ In v (bnames b).
Proof.
  intros (_ & n & Hn & Hu & Hv). assert (HF : In (family n) (families b)) by (apply in_map, Hn).
  split; apply (family_names _ HF); assumption.
Qed.

Lemma interacts_sym u v : interacts b u v -> interacts b v u.
Proof. intros (N & n & Hn & Hu & Hv). split; [congruence|]. exists n; auto. Qed.

Lemma interacts_dec u v : interacts b u v \/ ~ interacts b u v.
Proof.
  destruct (String.eqb_spec u v) as [->|N]; [right; intros [K _]; congruence|].
  destruct (existsb (fun n => mem u (family n) && mem v (family n)) (bnodes b)) eqn:E.
  - left. split; [exact N|]. apply existsb_exists in E as (n & Hn & E). apply andb_true_iff in E as [E1 E2].
    exists n. rewrite mem_In in E1, E2. auto.
  - right. intros (_ & n & Hn & Hu & Hv). apply not_true_iff_false in E. apply E, existsb_exists. exists n.
    split; [exact Hn|]. apply andb_true_iff. rewrite !mem_In. auto.
Qed.

Lemma moral_graph_spec : ug (moral_graph b) /\ dkeys (moral_graph b) = border b /\
  forall u v, In v (neighbours (moral_graph b) u) <-> interacts b u v.
Proof.
  destruct (to_undirected_spec b WG) as (G & K & S). unfold moral_graph.
  destruct (fold_edges_spec (flat_map (fun n => moral_pairs (dn_pdict n)) (bnodes b)) (to_undirected b) G) as (G' & K' & S').
  - intros u v H. apply in_flat_map in H as (n & Hn & H). apply moral_pairs_In in H as (Hu & Hv & N). rewrite K.
    assert (P := wn_pdict _ _ (wb_nodes _ WB n Hn)).
    apply (Permutation_in u P) in Hu. apply (Permutation_in v P) in Hv.
    split; [|split; [|exact N]]; apply (Permutation_in _ (wg_nodes _ WG)); eapply parent_name; eauto.
  - split; [exact G'|]. split; [etransitivity; [exact K'|exact K]|]. intros u v. cbv zeta in S'. rewrite S', S.
    assert (PN : forall n, In n (bnodes b) -> ~ In (dn_name n) (map fst (dn_parents n))).
    { intros n Hn. assert (N := wn_parents _ _ (wb_nodes _ WB n Hn)). inversion N; assumption. }
    assert (MP : forall x y, In (x, y) (flat_map (fun n => moral_pairs (dn_pdict n)) (bnodes b)) <->
      exists n, In n (bnodes b) /\ In x (map fst (dn_parents n)) /\ In y (map fst (dn_parents n)) /\ x <> y).
    { intros x y. rewrite in_flat_map. split; intros (n & Hn & H); exists n; (split; [exact Hn|]).
      - assert (P := wn_pdict _ _ (wb_nodes _ WB n Hn)). apply moral_pairs_In in H as (H1 & H2 & H3).
        split; [apply (Permutation_in x P), H1|]. split; [apply (Permutation_in y P), H2|exact H3].
      - assert (P := Permutation_sym (wn_pdict _ _ (wb_nodes _ WB n Hn))). apply moral_pairs_In. destruct H as (H1 & H2 & H3).
        split; [apply (Permutation_in x P), H1|]. split; [apply (Permutation_in y P), H2|exact H3]. }
    rewrite !MP. unfold linked0. assert (EM' := EM); red in EM'; rewrite !EM'. split.
    + intros [[(n & Hn & E & H)|(n & Hn & E & H)]|[(n & Hn & H1 & H2 & N)|(n & Hn & H1 & H2 & N)]].
      * subst v. split; [intros ->; exact (PN n Hn H)|]. exists n. cbn. auto.
      * subst u. split; [intros E; apply (PN n Hn); rewrite E; exact H|]. exists n. cbn. auto.
      * split; [exact N|]. exists n. cbn. auto.
      * split; [congruence|]. exists n. cbn. auto.
    + intros (N & n & Hn & [E1|H1] & [E2|H2]).
      * congruence.
      * left; right. exists n. auto.
      * left; left. exists n. auto.
      * right; left. exists n. auto.
Qed.

Lemma cluster_seq_ok (adj : string -> string -> Prop) order g : ug g -> NoDup order ->
  (forall w, In w (dkeys g) <-> In w order) ->
  (forall u v, In v (neighbours g u) <-> adj u v /\ In u order /\ In v order) ->
  exists cs, cluster_seq order g = Ok cs /\ clus adj order cs.
Proof.
  revert g. induction order as [|v o IH]; intros g G ND HK HN; cbn.
  - exists []. split; [reflexivity|constructor].
  - assert (Hv : In v (dkeys g)) by (apply HK; left; reflexivity). rewrite (proj2 (dmem_In v g) Hv).
    inversion ND as [|? ? Nv NDo]; subst.
    destruct (remove_unode_spec v g G) as (G' & K' & S').
    destruct (IH (remove_unode v g) G' NDo) as (cs & E & C).
    + intros w. rewrite K', HK. cbn. split; [intros [[->|H] N]; [congruence|exact H]|].
      intros H. split; [auto|]. intros ->; contradiction.
    + intros u w. rewrite S', HN. cbn. split.
      * intros [(A & [->|Hu] & [->|Hw]) [N1 N2]]; try congruence. auto.
      * intros (A & Hu & Hw). split; [auto|]. split; intros ->; contradiction.
    + rewrite E. cbn. exists ((v :: neighbours g v) :: cs). split; [reflexivity|]. constructor; [| |exact C].
      * constructor; [|apply G]. intros K. apply (ug_in _ G) in K. tauto.
      * intros u. rewrite HN. cbn. split.
        -- intros (A & _ & [->|Hu]); [|auto]. exfalso. assert (K : In u (neighbours g u)) by (apply HN; cbn; auto).
           apply (ug_in _ G) in K. tauto.
        -- intros [A Hu]. auto.
Qed.

Lemma connected_of : one_component b -> forall o, Permutation (bnames b) o -> connected (interacts b) o.
Proof.
  intros OC o P Q (u & Hu & Qu) Cl v Hv.
  assert (Hu' := Permutation_in _ (Permutation_sym P) Hu). assert (Hv' := Permutation_in _ (Permutation_sym P) Hv).
  assert (H := OC u v Hu' Hv'). apply clos_rt_rt1n in H. clear Hu' Hv'.
  induction H as [x|x y z A _ IH]; [exact Qu|]. 
  assert (Hy : In y o) by (apply (Permutation_in _ P), (interacts_names x y A)).
  apply IH; try assumption. apply (Cl x y); assumption.
Qed.

Variable o : list string.
Hypothesis PO : Permutation (bnames b) o.
Hypothesis DC : decodable (bnames b).
Hypothesis NE : bnodes b <> [].

Lemma o_nodup : NoDup o. Proof. apply (Permutation_NoDup PO), WG. Qed.

Lemma clusters_kept : exists cs L, cluster_seq o (moral_graph b) = Ok cs /\ prune cs = Ok L /\ clus (interacts b) o cs /\ kept cs L.
Proof.
  destruct moral_graph_spec as (G & K & S).
  destruct (cluster_seq_ok (interacts b) o (moral_graph b) G o_nodup) as (cs & E & C).
  - intros w. rewrite K. split; intros H.
    + apply (Permutation_in _ PO), (Permutation_in _ (Permutation_sym (wg_nodes _ WG))), H.
    + apply (Permutation_in _ (wg_nodes _ WG)), (Permutation_in _ (Permutation_sym PO)), H.
  - intros u v. rewrite S. split; [|tauto]. intros I. split; [exact I|].
    destruct (interacts_names _ _ I). split; apply (Permutation_in _ PO); assumption.
  - destruct (prune_kept (interacts b) o cs C o_nodup) as (L & EL & PL). exists cs, L. auto.
Qed.

Lemma kept_facts cs L : clus (interacts b) o cs -> kept cs L ->
  (forall c, In c L -> NoDup c /\ incl c (bnames b) /\ c <> []) /\ NoDup (map key_of L) /\ L <> [] /\
  forall c d, In c L -> In d L -> key_of c = key_of d -> c = d.
Proof.
  intros C (NDL & IL & CV & AC).
  assert (CN : forall c, In c L -> NoDup c /\ incl c (bnames b) /\ c <> []).
  { intros c Hc. assert (Hc' := IL c Hc). split; [|split].
    - apply in_split in Hc' as (pre & post & E). destruct (clus_split _ _ _ C pre c post E) as (? & ? & ? & ? & _ & _ & K & _). exact K.
    - intros v Hv. apply (Permutation_in _ (Permutation_sym PO)). apply (clus_in _ _ _ C c); assumption.
    - apply in_split in Hc' as (pre & post & E). destruct (clus_split _ _ _ C pre c post E) as (? & ? & ? & ? & _ & -> & _). discriminate. }
  assert (KI : forall c d, In c L -> In d L -> key_of c = key_of d -> c = d).
  { intros c d Hc Hd E. apply DC; try apply CN; assumption. }
  split; [exact CN|]. split; [|split; [|exact KI]].
  - clear - KI NDL. induction L as [|c L IH]; [constructor|]. inversion NDL; subst. cbn. constructor.
    + intros K. apply in_map_iff in K as (d & E & Hd). apply H1. rewrite <- (KI d c); auto; [right|left]; auto.
    + apply IH; [assumption|]. intros; apply KI; auto; right; assumption.
  - intros ->. destruct cs as [|c cs].
    + apply NE. inversion C; subst. apply Permutation_sym, Permutation_nil in PO. unfold bnames in PO. destruct (bnodes b); [reflexivity|discriminate].
    + destruct (CV c (or_introl eq_refl)) as (d & [] & _).
Qed.

Lemma clusters_ok : one_piece b o ->
  exists cs L, cluster_seq o (moral_graph b) = Ok cs /\ prune cs = Ok L /\ clus (interacts b) o cs /\ pruned cs L.
Proof.
  intros OP. destruct clusters_kept as (cs & L & E1 & E2 & C & K). exists cs, L.
  split; [exact E1|]. split; [exact E2|]. split; [exact C|]. apply pruned_kept. split; [|exact K].
  destruct (kept_facts cs L C K) as (_ & NDK & _). apply joined_rip; [exact NDK|].
  intros k k' Hk Hk'. apply (OP cs L E1 E2); apply build_keys; assumption.
Qed.

Lemma clear_build L : clear_factors (build_tree L) = build_tree L.
Proof.
  assert (MD : forall (f : clique -> clique) k c (d : dict clique),
     map (fun p => (fst p, f (snd p))) (dset k c d) = dset k (f c) (map (fun p => (fst p, f (snd p))) d)).
  { intros f k c d. induction d as [|[k' c'] d IH]; cbn; [reflexivity|]. destruct (String.eqb k k'); cbn; [reflexivity|]. rewrite IH. reflexivity. }
  assert (ME : forall (f : sepd -> sepd) u v c d,
     map (fun p => (fst p, f (snd p))) (eset u v c d) = eset u v (f c) (map (fun p => (fst p, f (snd p))) d)).
  { intros f u v c d. induction d as [|[e c'] d IH]; cbn; [reflexivity|]. destruct (same_edge u v e); cbn; [reflexivity|]. rewrite IH. reflexivity. }
  assert (AC : forall k c t, clear_factors t = t -> clear_factors (add_clique k (mkC c (trivial 1%Qc)) t) = add_clique k (mkC c (trivial 1%Qc)) t).
  { intros k c t E. unfold clear_factors in *. destruct t as [a1 a2 a3 a4]. cbn in *. injection E as E1 E2.
    unfold add_clique. cbn. rewrite (MD (fun x => mkC (cvars x) (trivial 1%Qc))), E1, E2. reflexivity. }
  assert (AS : forall u v c t, clear_factors t = t -> clear_factors (add_sep u v (mkS c (trivial 1%Qc)) t) = add_sep u v (mkS c (trivial 1%Qc)) t).
  { intros u v c t E. unfold clear_factors in *. destruct t as [a1 a2 a3 a4]. cbn in *. injection E as E1 E2.
    unfold add_sep. cbn. rewrite (ME (fun x => mkS (svars x) (trivial 1%Qc))), E1, E2. reflexivity. }
  induction L as [|c L IH]; [reflexivity|]. cbn [build_tree].
  destruct (jprop c L); [apply AC, IH|]. destruct (find _ L); [apply AS, AC, IH|apply AC, IH].
Qed.

Lemma tvalid_build L : tvalid (build_tree L) = false.
Proof.
  induction L as [|c L IH]; [reflexivity|]. cbn [build_tree].
  destruct (jprop c L); [exact IH|]. destruct (find _ L); exact IH.
Qed.

Lemma build_facts cs L : clus (interacts b) o cs -> pruned cs L ->
  (forall c, In c L -> NoDup c /\ incl c (bnames b) /\ c <> []) /\ NoDup (map key_of L) /\ L <> [] /\
  (forall c, In c L -> cvo (build_tree L) (key_of c) = c) /\
  forall k, In k (dkeys (tnodes (build_tree L))) <-> In k (map key_of L).
Proof.
  intros C P. destruct P as (RI & P).
  destruct (kept_facts cs L C P) as (CN & NDK & LN & KI).
  split; [exact CN|]. split; [exact NDK|]. split; [exact LN|].
    destruct (build_good (fun k => match find (fun d => String.eqb (key_of d) k) L with Some d => d | None => [] end) (svL L) L LN RI NDK)
      as (r & G).
    - intros; apply CN; assumption.
    - intros d Hd. destruct (find (fun d0 => String.eqb (key_of d0) (key_of d)) L) as [e|] eqn:EF.
      + apply find_some in EF as [He E]. apply String.eqb_eq in E. apply KI; assumption.
      + exfalso. assert (K := find_none _ _ EF d Hd). cbn in K. rewrite eqb_refl_s in K. discriminate.
    - intros pre d post E. rewrite E in NDK |- *. apply svL_split, NDK.
    - destruct G as (_ & G2 & _ & _ & _ & _ & _ & _ & _ & _ & _ & G).
      split; [intros c Hc; apply (cvo_node _ _ _ (G c Hc))|exact G2].
Qed.

Lemma build_jt_ok cs L : clus (interacts b) o cs -> pruned cs L ->
  exists r, jt_ok b (build_tree L) r (svL L).
Proof.
  intros C (RI & NDL & IL & CV & AC).
  destruct (build_facts cs L C (conj RI (conj NDL (conj IL (conj CV AC))))) as (CN & NDK & LN & CVO & _).
  destruct (build_good (cvo (build_tree L)) (svL L) L LN RI NDK) as (r & G).
  - intros; apply CN; assumption.
  - exact CVO.
  - intros pre d post E. rewrite E in NDK |- *. apply svL_split, NDK.
  - destruct G as (G1 & G2 & G3 & _ & _ & G6 & G7 & G8 & G9 & G10 & G11 & G12).
    assert (RK : forall k, In k (rkeys r) <-> exists c, In c L /\ k = key_of c).
    { intros k. split.
      - intros H. apply (Permutation_in k G6) in H. apply in_map_iff in H as (c & <- & Hc). eauto.
      - intros (c & Hc & ->). apply (Permutation_in _ (Permutation_sym G6)), in_map, Hc. }
    assert (NDr : NoDup (rkeys r)) by (apply (Permutation_NoDup (Permutation_sym G6)), NDK).
    assert (HM : forall F, In F (families b) -> exists h, home (build_tree L) F = Some h /\ In h (rkeys r) /\ incl F (cvo (build_tree L) h)).
    { intros F HF. assert (HF0 := HF). apply in_map_iff in HF0 as (n & En & Hn).
      destruct (clus_cover (interacts b) interacts_sym o cs C F) as (c & Hc & Ic).
      - rewrite <- En. discriminate.
      - intros v Hv. apply (Permutation_in _ PO). apply (family_names F HF v Hv).
      - intros u v Hu Hv N. split; [exact N|]. exists n. rewrite <- En in Hu, Hv. auto.
      - destruct (CV c Hc) as (d & Hd & Id). unfold home.
        destruct (find (fun p => subset F (snd p)) (vars_of (build_tree L))) as [[h ch]|] eqn:EF.
        + exists h. apply find_some in EF as [E1 E2]. cbn in E2. apply subset_spec in E2. split; [reflexivity|].
          assert (Kh : In h (dkeys (tnodes (build_tree L)))) by (rewrite <- vars_keys; apply in_map_iff; exists (h, ch); auto).
          split; [apply (Permutation_in _ (Permutation_sym G6)), G2, Kh|].
          unfold cvo. rewrite (In_dget h ch); [exact E2| |exact E1]. rewrite vars_keys. exact G3.
        + exfalso. assert (E1 : In (key_of d, d) (vars_of (build_tree L))).
          { apply dget_In. rewrite dget_vars, (G12 d Hd). reflexivity. }
          assert (K := find_none _ _ EF _ E1). cbn in K. apply not_true_iff_false in K. apply K, subset_spec.
          intros v Hv. apply Id, Ic, Hv. }
    exists r. split; try assumption.
    + intros k. rewrite G2, RK. rewrite in_map_iff. split; intros (c & H1 & H2); exists c; auto.
    + intros H. apply RK in H as (c & Hc & E). destruct (CN c Hc) as (Nc & Ic & Nn). apply Nn. symmetry. apply DC.
      * intros ? []. * exact Ic. * constructor. * exact Nc. * exact E.
    + intros k v. unfold cvo. destruct (dget k (vars_of (build_tree L))) as [l|] eqn:E; [|intros []].
      intros Hv. apply dget_In in E. assert (Kk : In k (dkeys (tnodes (build_tree L)))) by (rewrite <- vars_keys; apply in_map_iff; exists (k, l); auto).
      apply G2, in_map_iff in Kk as (c & <- & Hc). apply In_dget in E; [|rewrite vars_keys; exact G3].
      rewrite dget_vars, (G12 c Hc) in E. cbn in E. inversion E; subst. apply (CN l Hc), Hv.
    + intros F HF. destruct (HM F HF) as (h & Eh & _). eauto.
    + apply (covered_root b _ _ r); try assumption.
      * intros k Hk. apply RK in Hk as (c & Hc & ->). rewrite CVO by exact Hc.
        assert (Hc' := IL c Hc). apply in_split in Hc' as (pre & post & E).
        destruct (clus_split _ _ _ C pre c post E) as (o1 & w & o2 & l & EO & -> & _ & HL & _).
        exists w. split; [left; reflexivity|]. intros u [<-|Hu].
        -- assert (Hin : In w (bnames b)) by (apply (CN _ Hc); left; reflexivity). apply in_map_iff in Hin as (n & <- & Hn).
           exists (family n). split; [apply in_map, Hn|]. cbn; auto.
        -- apply HL in Hu as [(_ & n & Hn & H1 & H2) _]. exists (family n). split; [apply in_map, Hn|]. auto.
      * intros k k' Hk Hk' N. apply RK in Hk as (c & Hc & ->), Hk' as (c' & Hc' & ->). rewrite !CVO by assumption.
        apply AC; [exact Hc|apply IL, Hc'|]. congruence.
      * intros k v Hk Hv. apply RK in Hk as (c & Hc & ->). rewrite CVO in Hv by exact Hc.
        assert (Hin : In v (bnames b)) by (apply (CN c Hc), Hv). apply in_map_iff in Hin as (n & <- & Hn).
        exists (family n). split; [apply in_map, Hn|]. cbn; auto.
Qed.

Lemma order_nonempty : o <> [].
Proof.
  intros ->. apply NE. apply Permutation_sym, Permutation_nil in PO. unfold bnames in PO. destruct (bnodes b); [reflexivity|discriminate].
Qed.
End Net.
