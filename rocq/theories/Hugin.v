(** The tree operations of JoinTree.v compute the messages of HuginPure.v. *)
From Verif Require Import Base BaseFacts NDArray NDArrayFacts SumCalc Factor FactorFacts Exact SpecFacts
  Order JoinTree HuginPure.

(** ** Lookups *)
Lemma same_edge_spec u v e : same_edge u v e = true <-> (u, v) = e \/ (v, u) = e.
Proof.
  destruct e as [x y]. unfold same_edge. cbn. rewrite orb_true_iff, !andb_true_iff, !String.eqb_eq.
  split; [intros [[-> ->]|[-> ->]]; auto|intros [E|E]; inversion E; auto].
Qed.

Lemma same_edge_sym u v e : same_edge u v e = same_edge v u e.
Proof. apply eq_true_iff_eq. rewrite !same_edge_spec. tauto. Qed.

Lemma eget_sym u v l : eget u v l = eget v u l.
Proof. induction l as [|[e d] l IH]; cbn; [reflexivity|]. rewrite same_edge_sym, IH. reflexivity. Qed.

Lemma eget_eset u v u' v' d l :
  eget u v (eset u' v' d l) = if same_edge u v (u', v') then Some d else eget u v l.
Proof.
  induction l as [|[e d'] l IH]; cbn; [reflexivity|].
  destruct (same_edge u' v' e) eqn:E1; cbn.
  - destruct (same_edge u v e) eqn:E2.
    + replace (same_edge u v (u', v')) with true; [reflexivity|]. symmetry. apply same_edge_spec.
      apply same_edge_spec in E1, E2. destruct E1 as [<-|<-], E2 as [E|E]; inversion E; auto.
    + replace (same_edge u v (u', v')) with false; [reflexivity|]. symmetry. apply not_true_is_false. intros H.
      apply same_edge_spec in E1, H. apply not_true_iff_false in E2. apply E2, same_edge_spec.
      destruct E1 as [<-|<-], H as [E|E]; inversion E; auto.
  - rewrite IH. destruct (same_edge u v e) eqn:E2; [|reflexivity].
    destruct (same_edge u v (u', v')) eqn:E3; [|reflexivity]. exfalso.
    apply not_true_iff_false in E1. apply E1, same_edge_spec. apply same_edge_spec in E2, E3.
    destruct E2 as [<-|<-], E3 as [E|E]; inversion E; auto.
Qed.

(** The structure of a tree, without factors. *)
Definition skel (t : jtree) : jtree := clear_factors (set_valid false t).

Lemma map_dset {A B} (g : string * A -> B) k v d c : dget k d = Some c -> g (k, v) = g (k, c) ->
  map g (dset k v d) = map g d.
Proof.
  induction d as [|[k' c'] d IH]; cbn; [discriminate|]. destruct (String.eqb_spec k k') as [->|n]; intros E G.
  - inversion E; subst. cbn. f_equal. exact G.
  - cbn. f_equal. apply IH; assumption.
Qed.

Lemma map_eset {B} (g : (string * string) * sepd -> B) u v d l c : eget u v l = Some c ->
  (forall e, g (e, d) = g (e, c)) -> map g (eset u v d l) = map g l.
Proof.
  induction l as [|[e d'] l IH]; cbn; [discriminate|]. destruct (same_edge u v e); intros E G.
  - inversion E; subst. cbn. f_equal. apply G.
  - cbn. f_equal. apply IH; assumption.
Qed.

Lemma skel_set_cfac k f t : skel (set_cfac k f t) = skel t.
Proof.
  unfold set_cfac. destruct (dget k (tnodes t)) as [c|] eqn:E; [|reflexivity].
  unfold skel, clear_factors, set_valid; cbn. f_equal. eapply map_dset; [exact E|reflexivity].
Qed.

Lemma skel_set_sfac u v f t : skel (set_sfac u v f t) = skel t.
Proof.
  unfold set_sfac. destruct (eget u v (tedges t)) as [c|] eqn:E; [|reflexivity].
  unfold skel, clear_factors, set_valid; cbn. f_equal. eapply map_eset; [exact E|reflexivity].
Qed.

Lemma skel_adj t t' : skel t = skel t' -> tadj t = tadj t'.
Proof. intros E. apply (f_equal tadj) in E. exact E. Qed.

Lemma skel_valid x t : skel (set_valid x t) = skel t.
Proof. reflexivity. Qed.

Lemma skel_keys t t' : skel t = skel t' -> dkeys (tnodes t) = dkeys (tnodes t').
Proof.
  intros E. apply (f_equal tnodes) in E. unfold skel, clear_factors, set_valid in E; cbn in E.
  unfold dkeys. apply (f_equal (map fst)) in E. rewrite !map_map in E. exact E.
Qed.

Lemma dget_set_cfac x k f t : dget x (tnodes (set_cfac k f t)) =
  if String.eqb x k then option_map (fun c => mkC (cvars c) f) (dget k (tnodes t)) else dget x (tnodes t).
Proof.
  unfold set_cfac. destruct (dget k (tnodes t)) as [c|] eqn:E; cbn.
  - rewrite dget_dset. reflexivity.
  - destruct (String.eqb_spec x k) as [->|]; auto.
Qed.

Lemma eget_set_sfac x y u v f t : eget x y (tedges (set_sfac u v f t)) =
  if same_edge x y (u, v) then option_map (fun c => mkS (svars c) f) (eget u v (tedges t)) else eget x y (tedges t).
Proof.
  unfold set_sfac. destruct (eget u v (tedges t)) as [c|] eqn:E; cbn.
  - rewrite eget_eset. reflexivity.
  - destruct (same_edge x y (u, v)) eqn:S; [|reflexivity]. apply same_edge_spec in S as [S|S]; inversion S; subst; [exact E|].
    rewrite eget_sym. exact E.
Qed.

Lemma tedges_set_cfac k f t : tedges (set_cfac k f t) = tedges t.
Proof. unfold set_cfac. destruct (dget _ _); reflexivity. Qed.
Lemma tnodes_set_sfac u v f t : tnodes (set_sfac u v f t) = tnodes t.
Proof. unfold set_sfac. destruct (eget _ _ _); reflexivity. Qed.

Lemma each_app {A} f (l1 l2 : list A) t : each f (l1 ++ l2) t =
  match each f l1 t with (t', Ok _) => each f l2 t' | (t', Err e) => (t', Err e) end.
Proof.
  revert t; induction l1 as [|x l1 IH]; intros t; cbn; [reflexivity|].
  destruct (f x t) as [t' [u|e]]; [apply IH|reflexivity].
Qed.

Lemma Qcdiv_1 x : (x / 1)%Qc = x.
Proof. unfold Qcdiv. rewrite <- (Qcmult_1_l (/ 1)), Qcmult_inv_r; [ring|discriminate]. Qed.

Section Hugin.
Context {SO : SetOrder}.
Variable dom : string -> list string.
Notation card := (FactorFacts.card dom).
Notation wf := (wf_factor dom).
Variable U : list string.
Hypothesis zero_range : inrange card U (fun _ => 0).

(** [f] is a table over the variables [X] for the function [F]. *)
Definition rep (f : factor) (X : list string) (F : asg -> Qc) : Prop :=
  wf f /\ (forall v, In v (vorder f) <-> In v X) /\ incl X U /\
  forall a, inrange card U a -> feval f a = F a.

Lemma rep_range f X F a : rep f X F -> inrange card U a -> inrange card (vorder f) a.
Proof. intros (_ & S & I & _) R v Hv. apply R, I, S, Hv. Qed.

Lemma rep_ext f X F G : rep f X F -> (forall a, inrange card U a -> F a = G a) -> rep f X G.
Proof. intros (A & B & C & D) E. split; [exact A|]. split; [exact B|]. split; [exact C|]. intros a R. rewrite D, E; auto. Qed.

Lemma rep_scope f X Y F : rep f X F -> (forall v, In v X <-> In v Y) -> rep f Y F.
Proof.
  intros (A & B & C & D) E. split; [exact A|]. split; [intros v; rewrite B; apply E|].
  split; [intros v Hv; apply C, E, Hv|exact D].
Qed.

Lemma rep_mul f X F g Y G : rep f X F -> rep g Y G ->
  exists h, fmul f g = Ok h /\ rep h (X ++ Y) (fun a => F a * G a)%Qc /\ exists extra, vorder h = vorder f ++ extra.
Proof.
  intros Rf Rg. destruct (fcombine_spec dom Qcmult f g (proj1 Rf) (proj1 Rg)) as (h & E & W & X' & S & V).
  exists h. split; [exact E|]. split; [|exact X'].
  assert (SC : forall v, In v (vorder h) <-> In v (X ++ Y)).
  { intros v. rewrite S, in_app_iff. rewrite (proj1 (proj2 Rf) v), (proj1 (proj2 Rg) v). tauto. }
  assert (I : incl (X ++ Y) U) by (apply incl_app; [apply Rf|apply Rg]).
  split; [exact W|]. split; [exact SC|]. split; [exact I|].
  intros a R. rewrite V. - f_equal; [apply Rf, R|apply Rg, R].
  - intros v Hv. apply R, I, SC, Hv.
Qed.

Lemma rep_marg f X F C S : rep f X F -> NoDup C -> incl X C -> incl C U ->
  (forall v, In v C -> ~ In v S -> In v X) ->
  exists h, marginalize f (sdiff C S) = Ok h /\
    rep h (filter (fun v => mem v S) X) (sum_over card (minus C S) F).
Proof.
  intros Rf NC XC CU Cov. assert (Rf0 := Rf). destruct Rf as (Wf & Sf & If & Vf).
  destruct (marginalize_spec dom f (sdiff C S) Wf (sdiff_nodup _ _)) as (h & E & W & Sh & Vh).
  { intros v Hv. apply sdiff_spec in Hv as [H1 H2]. apply Sf, Cov; assumption. }
  exists h. split; [exact E|].
  assert (SC : forall v, In v (vorder h) <-> In v (filter (fun v => mem v S) X)).
  { intros v. rewrite Sh, Sf, filter_In, mem_In, sdiff_spec. split.
    - intros [H1 H2]. split; [exact H1|]. destruct (In_dec_s v S); [assumption|]. exfalso; apply H2; auto.
    - intros [H1 H2]. split; [exact H1|]. tauto. }
  split; [exact W|]. split; [exact SC|]. split.
  { intros v Hv. apply filter_In in Hv as [Hv _]. apply If, Hv. }
  intros a R. rewrite Vh.
  - rewrite (sum_over_perm card (rev (sdiff C S)) (minus C S)).
    + apply sum_over_ext_in. intros b' Rb Eb. apply Vf.
      intros v Hv. destruct (In_dec_s v (minus C S)) as [H|H]; [apply Rb, H|]. rewrite Eb by exact H. apply R, Hv.
    + apply feval_ext.
    + apply NoDup_Permutation; [apply NoDup_rev, sdiff_nodup|apply minus_NoDup, NC|].
      intros v. rewrite <- in_rev, sdiff_spec, minus_In. tauto.
  - intros v Hv. apply R, If. apply SC in Hv. apply filter_In in Hv. tauto.
Qed.

Lemma rep_div f X F g Z G : rep f X F -> rep g Z G -> incl Z X ->
  (Z = [] -> G (fun _ => 0) <> 0%Qc) ->
  exists h, fdiv f g = Ok h /\ rep h X (fun a => F a / G a)%Qc.
Proof.
  intros Rf Rg I T. destruct (fdiv_spec dom f g (proj1 Rf) (proj1 Rg)) as (h & E & W & S & V).
  - intros v Hv. apply Rf, I, Rg, Hv.
  - intros N. rewrite (proj2 (proj2 (proj2 Rg))) by exact zero_range. apply T.
    destruct Z as [|z Z]; [reflexivity|]. exfalso.
    assert (H : In z (vorder g)) by (apply Rg; left; reflexivity). rewrite N in H. destruct H.
  - exists h. split; [exact E|]. split; [exact W|].
    assert (SC : forall v, In v (vorder h) <-> In v X) by (intros v; rewrite S; apply Rf).
    split; [exact SC|]. split; [apply Rf|]. intros a R. rewrite V.
    + f_equal; [apply Rf, R|apply Rg, R].
    + intros v Hv. apply R. apply Rf, SC, Hv.
Qed.

(** One message. *)
Lemma send_rep k p t C S fk X F D fp Y G fs Z H :
  dget k (tnodes t) = Some (mkC C fk) -> rep fk X F ->
  dget p (tnodes t) = Some (mkC D fp) -> rep fp Y G ->
  eget k p (tedges t) = Some (mkS S fs) -> rep fs Z H ->
  NoDup C -> incl X C -> incl C U -> (forall v, In v C -> ~ In v S -> In v X) ->
  incl Z X -> incl Z S -> (Z = [] -> H (fun _ => 0) <> 0%Qc) ->
  exists new f, send k p t = (set_sfac k p new (set_cfac p f t), Ok tt) /\
    rep new (filter (fun v => mem v S) X) (sum_over card (minus C S) F) /\
    rep f (Y ++ filter (fun v => mem v S) X) (fun a => G a * (sum_over card (minus C S) F a / H a))%Qc /\
    exists q, fmul fp q = Ok f /\ rep q (filter (fun v => mem v S) X) (fun a => sum_over card (minus C S) F a / H a)%Qc /\
    exists extra, vorder f = vorder fp ++ extra.
Proof.
  intros Ek Rk Ep Rp Es Rs NC XC CU Cov ZX ZS T.
  destruct (rep_marg fk X F C S Rk NC XC CU Cov) as (new & En & Rn).
  destruct (rep_div new _ _ fs Z H Rn Rs) as (q & Eq & Rq).
  { intros v Hv. apply filter_In. split; [apply ZX, Hv|apply mem_In, ZS, Hv]. }
  { exact T. }
  destruct (rep_mul fp Y G q _ _ Rp Rq) as (f & Ef & Rf & Xf).
  exists new, f. split; [|split; [exact Rn|split; [exact Rf|exists q; auto]]].
  unfold send, dget_err. rewrite Ek, Es, Ep. cbn [rbind cfac cvars svars sfac].
  rewrite En. cbn [rbind]. rewrite Eq. cbn [rbind]. rewrite Ef. reflexivity.
Qed.

(** ** Frames *)
Record frame (t t' : jtree) (Kn Ke : list string) : Prop := {
  fr_skel : skel t' = skel t;
  fr_nodes : forall x, ~ In x Kn -> dget x (tnodes t') = dget x (tnodes t);
  fr_edges : forall x y, ~ In x Ke -> eget x y (tedges t') = eget x y (tedges t)
}.

Lemma frame_refl t Kn Ke : frame t t Kn Ke. Proof. split; reflexivity || auto. Qed.
Lemma frame_trans t1 t2 t3 Kn Ke : frame t1 t2 Kn Ke -> frame t2 t3 Kn Ke -> frame t1 t3 Kn Ke.
Proof.
  intros [A B C] [A' B' C']. split; [congruence| |].
  - intros x Hx. rewrite B', B; auto. - intros x y Hx. rewrite C', C; auto.
Qed.
Lemma frame_incl t t' Kn Ke Kn' Ke' : frame t t' Kn Ke -> incl Kn Kn' -> incl Ke Ke' -> frame t t' Kn' Ke'.
Proof. intros [A B C] I J. split; auto. Qed.

Lemma frame_send k p new f t : frame t (set_sfac k p new (set_cfac p f t)) [p] [k; p].
Proof.
  split.
  - rewrite skel_set_sfac, skel_set_cfac. reflexivity.
  - intros x Hx. rewrite tnodes_set_sfac, dget_set_cfac. destruct (String.eqb_spec x p) as [->|]; [|reflexivity].
    exfalso; apply Hx; left; reflexivity.
  - intros x y Hx. rewrite eget_set_sfac, tedges_set_cfac. destruct (same_edge x y (k, p)) eqn:E; [|reflexivity].
    exfalso. apply same_edge_spec in E as [E|E]; inversion E; subst; apply Hx; cbn; auto.
Qed.

Lemma send_node k p new f t c : dget p (tnodes t) = Some c ->
  dget p (tnodes (set_sfac k p new (set_cfac p f t))) = Some (mkC (cvars c) f).
Proof. intros E. rewrite tnodes_set_sfac, dget_set_cfac, eqb_refl_s, E. reflexivity. Qed.

Lemma send_edge k p new f t s : eget k p (tedges t) = Some s ->
  eget k p (tedges (set_sfac k p new (set_cfac p f t))) = Some (mkS (svars s) new).
Proof.
  intros E. rewrite eget_set_sfac, tedges_set_cfac, E.
  replace (same_edge k p (k, p)) with true; [reflexivity|]. symmetry. apply same_edge_spec; auto.
Qed.

(** ** The rooted tree inside the graph *)
Inductive adjok (adj : ugraph) : option string -> rtree -> Prop :=
| AO p k cs : filter (fun x => negb (is_parent p x)) (neighbours adj k) = map rkey cs ->
    Forall (adjok adj (Some k)) cs -> adjok adj p (RT k cs).

(** The variables of the tables that a subtree has collected at its root: those of
    the root's own table and those of the messages from below. *)
Fixpoint scope_of (sv sc : string -> list string) (r : rtree) : list string :=
  match r with
  | RT k cs => sc k ++ flat_map (fun c => filter (fun v => mem v (sv (rkey c))) (scope_of sv sc c)) cs
  end.

Lemma scope_mono sv sc sc' : (forall k, incl (sc k) (sc' k)) -> forall r, incl (scope_of sv sc r) (scope_of sv sc' r).
Proof.
  intros I. induction r as [k cs IH] using rtree_ind'. intros v Hv. cbn [scope_of] in *. apply in_app_or in Hv as [Hv|Hv].
  - apply in_or_app; left. apply I, Hv.
  - apply in_or_app; right. apply in_flat_map in Hv as (c & Hc & Hv). apply in_flat_map. exists c. split; [exact Hc|].
    apply filter_In in Hv as [H1 H2]. apply filter_In. split; [|exact H2]. rewrite Forall_forall in IH. apply (IH c Hc), H1.
Qed.

Variables cv sv sc : string -> list string.
Variable psi : string -> asg -> Qc.
Hypothesis psi_deps : forall k, deps (cv k) (psi k).
Hypothesis cv_U : forall k, incl (cv k) U.
Hypothesis psi_nonneg : forall k a, inrange card U a -> (0 <= psi k a)%Qc.

Notation rjt := (rjt cv sv).
Notation msg := (msg card cv sv psi).
Notation hat := (hat card cv sv psi).
Notation tprod := (tprod psi).
Notation V := (V cv sv).
Notation mg := (mg card cv sv psi).
Notation scope := (scope_of sv sc).

(** The variables of the message that a subtree sends. *)
Definition msc (r : rtree) : list string := filter (fun v => mem v (sv (rkey r))) (scope r).

(** Before the inward pass: initial clique factors, trivial separators. *)
Inductive ready (t : jtree) : string -> rtree -> Prop :=
| Rdy p k cs f g : dget k (tnodes t) = Some (mkC (cv k) f) -> rep f (sc k) (psi k) -> incl (sc k) (cv k) ->
    (forall v, In v (cv k) -> ~ In v (sv k) -> In v (scope (RT k cs))) -> msc (RT k cs) <> [] ->
    eget k p (tedges t) = Some (mkS (sv k) g) -> rep g [] (fun _ => 1%Qc) -> k <> "" ->
    Forall (ready t k) cs -> ready t p (RT k cs).

(** After it. *)
Inductive pulled (t : jtree) : string -> rtree -> Prop :=
| Pld p k cs f g : dget k (tnodes t) = Some (mkC (cv k) f) -> rep f (scope (RT k cs)) (hat (RT k cs)) ->
    incl (scope (RT k cs)) (cv k) -> (forall v, In v (cv k) -> ~ In v (sv k) -> In v (scope (RT k cs))) -> msc (RT k cs) <> [] ->
    eget k p (tedges t) = Some (mkS (sv k) g) -> rep g (msc (RT k cs)) (msg (RT k cs)) ->
    Forall (pulled t k) cs -> pulled t p (RT k cs).

Lemma rkey_in r : In (rkey r) (rkeys r). Proof. destruct r; left; reflexivity. Qed.

Lemma ready_frame t t' r : forall p, ready t p r ->
  (forall x, In x (rkeys r) -> dget x (tnodes t') = dget x (tnodes t)) ->
  (forall x y, In x (rkeys r) -> eget x y (tedges t') = eget x y (tedges t)) -> ready t' p r.
Proof.
  induction r as [k cs IH] using rtree_ind'. intros p Y HN HE. inversion Y as [? ? ? f g H1 H2 H3 H4 H4' H5 H6 H7 H8]; subst.
  econstructor; eauto.
  - rewrite HN; [exact H1|left; reflexivity].
  - rewrite HE; [exact H5|left; reflexivity].
  - rewrite Forall_forall in IH, H8 |- *. intros c Hc. apply IH; auto.
    + intros x Hx. apply HN. right. apply in_flat_map; eauto.
    + intros x y Hx. apply HE. right. apply in_flat_map; eauto.
Qed.

Lemma pulled_frame t t' r : forall p, pulled t p r ->
  (forall x, In x (rkeys r) -> dget x (tnodes t') = dget x (tnodes t)) ->
  (forall x y, In x (rkeys r) -> eget x y (tedges t') = eget x y (tedges t)) -> pulled t' p r.
Proof.
  induction r as [k cs IH] using rtree_ind'. intros p Y HN HE. inversion Y as [? ? ? f g H1 H2 K1 K2 K3 H3 H4 H5]; subst.
  econstructor; eauto.
  - rewrite HN; [exact H1|left; reflexivity].
  - rewrite HE; [exact H3|left; reflexivity].
  - rewrite Forall_forall in IH, H5 |- *. intros c Hc. apply IH; auto.
    + intros x Hx. apply HN. right. apply in_flat_map; eauto.
    + intros x y Hx. apply HE. right. apply in_flat_map; eauto.
Qed.

Lemma sum_S_length {A} (f : A -> list string) c l : In c l -> length (f c) <= length (flat_map f l).
Proof.
  induction l as [|x l IH]; cbn; intros H; [destruct H|]. rewrite app_length. destruct H as [->|H]; [lia|].
  specialize (IH H). lia.
Qed.

(** What the inward pass does for one subtree. *)
Definition pull_ok (r : rtree) : Prop := forall fuel p t fp Y G D,
  length (rkeys r) <= fuel -> adjok (tadj t) (Some p) r -> NoDup (p :: rkeys r) -> p <> "" ->
  rjt r -> ready t p r ->
  dget p (tnodes t) = Some (mkC D fp) -> rep fp Y G ->
  exists t' fp', pull fuel (rkey r) (Some p) t = (t', Ok tt) /\
    frame t t' (p :: rkeys r) (p :: rkeys r) /\ pulled t' p r /\
    dget p (tnodes t') = Some (mkC D fp') /\ rep fp' (Y ++ msc r) (fun a => G a * msg r a)%Qc.

Lemma pull_children k cs : Forall pull_ok cs -> forall fuel t f Y G D,
  (forall c, In c cs -> length (rkeys c) <= fuel) -> Forall (adjok (tadj t) (Some k)) cs ->
  NoDup (k :: flat_map rkeys cs) -> k <> "" -> Forall rjt cs -> Forall (ready t k) cs ->
  dget k (tnodes t) = Some (mkC D f) -> rep f Y G ->
  exists t' f', each (fun x => pull fuel x (Some k)) (map rkey cs) t = (t', Ok tt) /\
    frame t t' (k :: flat_map rkeys cs) (k :: flat_map rkeys cs) /\ Forall (pulled t' k) cs /\
    dget k (tnodes t') = Some (mkC D f') /\
    rep f' (Y ++ flat_map msc cs) (fun a => G a * qprod (map (fun c => msg c a) cs))%Qc.
Proof.
  induction cs as [|c cs IH]; intros P fuel t f Y G D Fu Ad ND Ne J Re Ek Rk.
  - exists t, f. cbn. split; [reflexivity|]. split; [apply frame_refl|]. split; [constructor|].
    split; [exact Ek|]. rewrite app_nil_r. eapply rep_ext; [exact Rk|]. intros; ring.
  - inversion P as [|? ? Pc Pcs]; subst. inversion Ad as [|? ? Adc Adcs]; subst.
    inversion J as [|? ? Jc Jcs]; subst. inversion Re as [|? ? Rc Rcs]; subst.
    cbn [flat_map] in ND. inversion ND as [|? ? Nk ND']; subst.
    assert (NDc := NoDup_app_l _ _ ND'). assert (NDcs := NoDup_app_r _ _ ND').
    assert (DJ : forall x, In x (rkeys c) -> ~ In x (flat_map rkeys cs)) by (intros x; apply NoDup_app_no; exact ND').
    destruct (Pc fuel k t f Y G D) as (t1 & f1 & E1 & F1 & Pl & Ek1 & Rk1); auto.
    { apply Fu; left; reflexivity. }
    { constructor; [|exact NDc]. intros H. apply Nk, in_or_app; auto. }
    assert (A1 := skel_adj _ _ (fr_skel _ _ _ _ F1)).
    destruct (IH Pcs fuel t1 f1 (Y ++ msc c) (fun a => G a * msg c a)%Qc D) as (t2 & f2 & E2 & F2 & Pl2 & Ek2 & Rk2); auto.
    { intros c' Hc'. apply Fu; right; exact Hc'. }
    { rewrite A1. exact Adcs. }
    { constructor; [|exact NDcs]. intros H. apply Nk, in_or_app; auto. }
    { rewrite Forall_forall in Rcs |- *. intros c' Hc'. eapply ready_frame; [apply Rcs, Hc'| |].
      - intros x Hx. apply (fr_nodes _ _ _ _ F1). intros [<-|H].
        + apply Nk, in_or_app. right. apply in_flat_map; eauto.
        + apply (DJ x H). apply in_flat_map; eauto.
      - intros x y Hx. apply (fr_edges _ _ _ _ F1). intros [<-|H].
        + apply Nk, in_or_app. right. apply in_flat_map; eauto.
        + apply (DJ x H). apply in_flat_map; eauto. }
    exists t2, f2. cbn [map each]. rewrite E1. split; [exact E2|]. split; [|split; [|split; [exact Ek2|]]].
    + cbn [flat_map]. eapply frame_trans.
      * eapply frame_incl; [exact F1| |]; intros x [->|H]; cbn; auto; right; apply in_or_app; auto.
      * eapply frame_incl; [exact F2| |]; intros x [->|H]; cbn; auto; right; apply in_or_app; auto.
    + constructor; [|exact Pl2]. eapply pulled_frame; [exact Pl| |].
      * intros x Hx. apply (fr_nodes _ _ _ _ F2). intros [<-|H]; [apply Nk, in_or_app; auto|exact (DJ x Hx H)].
      * intros x y Hx. apply (fr_edges _ _ _ _ F2). intros [<-|H]; [apply Nk, in_or_app; auto|exact (DJ x Hx H)].
    + cbn [flat_map map qprod]. rewrite app_assoc. eapply rep_ext; [exact Rk2|]. intros; cbn; ring.
Qed.

Lemma pull_spec r : pull_ok r.
Proof.
  induction r as [k cs IH] using rtree_ind'. intros fuel p t fp Y G D Fu Ad ND Np J Re Ep Rp.
  cbn [rkeys length] in Fu. destruct fuel as [|fuel]; [lia|].
  inversion Ad as [? ? ? Af Ac]; subst. inversion Re as [? ? ? f g H1 H2 H3 H4 H4' H5 H6 H7 H8]; subst.
  assert (J0 := J). apply rjt_inv in J0 as (Nc & I & Js & Is & _ & _).
  cbn [rkeys] in ND. inversion ND as [|? ? Npk NDk]; subst.
  assert (Nkp : k <> p) by (intros ->; apply Npk; left; reflexivity).
  destruct (pull_children k cs IH fuel t f (sc k) (psi k) (cv k)) as (t1 & f1 & E1 & F1 & Pl & Ek & Rk); auto.
  { intros c Hc. assert (L := sum_S_length rkeys c cs Hc). lia. }
  assert (SI : incl (scope (RT k cs)) (cv k)).
  { intros v Hv. cbn [scope_of] in Hv. apply in_app_or in Hv as [Hv|Hv]; [apply H3, Hv|].
    apply in_flat_map in Hv as (c & Hc & Hv). apply filter_In in Hv as [_ Hv]. apply mem_In in Hv. rewrite Forall_forall in Is. exact (Is c Hc v Hv). }
  assert (Rk' : rep f1 (scope (RT k cs)) (hat (RT k cs))) by exact Rk.
  assert (Npc : ~ In p (k :: flat_map rkeys cs)) by exact Npk.
  assert (Ep1 : dget p (tnodes t1) = Some (mkC D fp)) by (rewrite (fr_nodes _ _ _ _ F1); assumption).
  assert (Es1 : eget k p (tedges t1) = Some (mkS (sv k) g)).
  { rewrite eget_sym, (fr_edges _ _ _ _ F1), eget_sym; assumption. }
  destruct (send_rep k p t1 (cv k) (sv k) f1 (scope (RT k cs)) (hat (RT k cs)) D fp Y G g [] (fun _ => 1%Qc) Ek Rk' Ep1 Rp Es1 H6 Nc
    SI (cv_U k) H4) as (new & f' & Es & Rn & Rf & _); auto.
  { intros v []. } { intros v []. } { intros _ E. discriminate E. }
  exists (set_sfac k p new (set_cfac p f' t1)), f'.
  assert (FS := frame_send k p new f' t1).
  split; [|split; [|split; [|split]]].
  - cbn [pull rkey]. rewrite Af, E1. destruct p as [|ch p']; [congruence|]. exact Es.
  - eapply frame_trans.
    + eapply frame_incl; [exact F1| |]; intros x Hx; right; exact Hx.
    + eapply frame_incl; [exact FS| |]; intros x Hx; cbn in Hx |- *; tauto.
  - econstructor.
    + rewrite (fr_nodes _ _ _ _ FS); [exact Ek|]. intros [<-|[]]. congruence.
    + exact Rk'.
    + exact SI.
    + exact H4.
    + exact H4'.
    + apply (send_edge k p new f' t1 _ Es1).
    + exact Rn.
    + rewrite Forall_forall in Pl |- *. intros c Hc. eapply pulled_frame; [apply Pl, Hc| |].
      * intros x Hx. apply (fr_nodes _ _ _ _ FS). intros [<-|[]]. apply Npk. right. apply in_flat_map; eauto.
      * intros x y Hx. apply (fr_edges _ _ _ _ FS). inversion NDk as [|? ? Nk _]; subst.
        intros [<-|[<-|[]]]; [apply Nk|apply Npk; right]; apply in_flat_map; eauto.
  - apply (send_node k p new f' t1 _ Ep1).
  - eapply rep_ext; [exact Rf|]. intros a _. cbv beta. rewrite Qcdiv_1. reflexivity.
Qed.

(** ** Outward pass *)

(** Final state: every clique and separator holds the marginal of [L] onto its
    variables. *)
Inductive final (L : list string -> asg -> Qc) (t : jtree) : rtree -> Prop :=
| Fin k cs f : dget k (tnodes t) = Some (mkC (cv k) f) -> rep f (cv k) (L (cv k)) ->
    Forall (fun c => exists g, eget (rkey c) k (tedges t) = Some (mkS (sv (rkey c)) g) /\
                               rep g (sv (rkey c)) (L (sv (rkey c)))) cs ->
    Forall (final L t) cs -> final L t (RT k cs).

Lemma final_frame L t t' r : final L t r ->
  (forall x, In x (rkeys r) -> dget x (tnodes t') = dget x (tnodes t)) ->
  (forall x y, In x (rkeys r) -> eget x y (tedges t') = eget x y (tedges t)) -> final L t' r.
Proof.
  induction r as [k cs IH] using rtree_ind'. intros Y HN HE. inversion Y as [? ? f H1 H2 H3 H4]; subst.
  econstructor; eauto.
  - rewrite HN; [exact H1|left; reflexivity].
  - rewrite Forall_forall in H3 |- *. intros c Hc. destruct (H3 c Hc) as (g & E & R). exists g. split; [|exact R].
    rewrite eget_sym, HE, eget_sym; [exact E|left; reflexivity].
  - rewrite Forall_forall in IH, H4 |- *. intros c Hc. apply IH; auto.
    + intros x Hx. apply HN. right. apply in_flat_map; eauto.
    + intros x y Hx. apply HE. right. apply in_flat_map; eauto.
Qed.

Lemma final_ext L L' t r : rjt r -> (forall X a, incl X (V r) -> inrange card U a -> L X a = L' X a) ->
  final L t r -> final L' t r.
Proof.
  induction r as [k cs IH] using rtree_ind'. intros J E F. inversion F as [? ? f H1 H2 H3 H4]; subst.
  assert (VC := fun c => V_child card cv sv k cs c J). assert (J0 := J). apply rjt_inv in J0 as (_ & _ & Js & _).
  assert (Isv : forall c, In c cs -> incl (sv (rkey c)) (V (RT k cs))).
  { intros c Hc v Hv. apply (VC c Hc). rewrite Forall_forall in Js. apply (V_alt card); auto. }
  econstructor.
  - exact H1.
  - eapply rep_ext; [exact H2|]. intros a R. apply E; [|exact R]. cbn. apply incl_appl, incl_refl.
  - rewrite Forall_forall in H3 |- *. intros c Hc. destruct (H3 c Hc) as (g & Eg & R). exists g. split; [exact Eg|].
    eapply rep_ext; [exact R|]. intros a Ra. apply E; [|exact Ra]. apply Isv, Hc.
  - rewrite Forall_forall in IH, H4, Js |- *. intros c Hc. apply IH; auto.
    intros X a IX Ra. apply E; [|exact Ra]. intros v Hv. apply (VC c Hc), IX, Hv.
Qed.

Inductive seps_ne : rtree -> Prop :=
| SN k cs : Forall (fun c => sv (rkey c) <> []) cs -> Forall seps_ne cs -> seps_ne (RT k cs).

Definition push_ok (r : rtree) : Prop := forall fuel p t f R,
  length (rkeys r) <= fuel -> adjok (tadj t) p r -> NoDup (rkeys r) -> rjt r -> seps_ne r ->
  (forall c, In c (match r with RT _ cs => cs end) -> pulled t (rkey r) c) ->
  deps (sv (rkey r)) R ->
  dget (rkey r) (tnodes t) = Some (mkC (cv (rkey r)) f) -> rep f (cv (rkey r)) (fun a => hat r a * R a)%Qc ->
  exists t', push fuel (rkey r) p t = (t', Ok tt) /\
    frame t t' (rkeys r) (rkeys r) /\ final (mg R r) t' r.

Lemma push_children k cs0 R f : rjt (RT k cs0) -> seps_ne (RT k cs0) -> deps (sv k) R ->
  rep f (cv k) (fun a => hat (RT k cs0) a * R a)%Qc -> Forall push_ok cs0 ->
  forall cs done, cs0 = done ++ cs -> forall fuel t,
  (forall c, In c cs -> length (rkeys c) <= fuel) -> Forall (adjok (tadj t) (Some k)) cs ->
  NoDup (k :: flat_map rkeys cs) -> Forall (pulled t k) cs ->
  dget k (tnodes t) = Some (mkC (cv k) f) ->
  exists t', each (fun x t => match send k x t with
                       | (t', Ok _) => push fuel x (Some k) t'
                       | (t', Err e) => (t', Err e)
                       end) (map rkey cs) t = (t', Ok tt) /\
    frame t t' (flat_map rkeys cs) (k :: flat_map rkeys cs) /\
    Forall (fun c => exists g, eget (rkey c) k (tedges t') = Some (mkS (sv (rkey c)) g) /\
                               rep g (sv (rkey c)) (mg R (RT k cs0) (sv (rkey c)))) cs /\
    Forall (final (mg R (RT k cs0)) t') cs.
Proof.
  intros J SNE DR Rf PO. assert (J0 := J). apply rjt_inv in J0 as (Nc & I & Js & Is & _ & _).
  inversion SNE as [? ? Sne Snes]; subst. rewrite Forall_forall in Js, Is, Sne, Snes, PO.
  induction cs as [|c cs IH]; intros done Ecs fuel t Fu Ad ND Pl Ek.
  - exists t. split; [reflexivity|]. split; [apply frame_refl|]. split; constructor.
  - assert (Hc : In c cs0) by (rewrite Ecs; apply in_elt).
    assert (Jc := Js c Hc). inversion Ad as [|? ? Adc Adcs]; subst. inversion Pl as [|? ? Plc Plcs]; subst.
    cbn [flat_map] in ND. inversion ND as [|? ? Nk ND']; subst.
    assert (NDc := NoDup_app_l _ _ ND'). assert (NDcs := NoDup_app_r _ _ ND').
    assert (DJ : forall x, In x (rkeys c) -> ~ In x (flat_map rkeys cs)) by (intros x; apply NoDup_app_no; exact ND').
    assert (Nkc : k <> rkey c) by (intros E; apply Nk, in_or_app; left; rewrite E; apply rkey_in).
    destruct c as [kc ccs]. cbn [rkey] in *.
    inversion Plc as [? ? ? fc gc H1 H2 K1 K2 K3 H3 H4 H5]; subst.
    assert (H3' : eget k kc (tedges t) = Some (mkS (sv kc) gc)) by (rewrite eget_sym; exact H3).
    assert (Isv := Is _ Hc : incl (sv kc) (cv k)).
    destruct (send_rep k kc t (cv k) (sv kc) f (cv k) _ (cv kc) fc (scope (RT kc ccs)) _ gc (msc (RT kc ccs)) _ Ek Rf H1 H2 H3' H4 Nc
       (incl_refl _) (cv_U k)) as (new & f' & Es & Rn & Rf' & _); auto.
    { intros v Hv. apply Isv. apply filter_In in Hv as [_ Hv]. apply mem_In, Hv. }
    { intros v Hv. apply filter_In in Hv as [_ Hv]. apply mem_In, Hv. }
    set (t1 := set_sfac k kc new (set_cfac kc f' t)) in *.
    assert (FS := frame_send k kc new f' t : frame t t1 [kc] [k; kc]).
    set (c := RT kc ccs) in *. set (Rc := outside card cv sv psi R k done c cs).
    assert (PM : forall a, inrange card U a ->
       sum_over card (minus (cv k) (sv kc)) (fun a => hat (RT k (done ++ c :: cs)) a * R a)%Qc a = (msg c a * Rc a)%Qc).
    { intros a _. unfold Rc. rewrite <- (parent_message card cv sv psi psi_deps R k done c cs J DR a).
      apply sum_over_ext. intros. apply Qcmult_comm. }
    assert (SNv : forall v, In v (filter (fun v => mem v (sv kc)) (cv k)) <-> In v (sv kc)).
    { intros v. rewrite filter_In, mem_In. split; [tauto|]. auto. }
    assert (Jci := Jc). apply rjt_inv in Jci as (_ & Ic & _).
    assert (Rf1 : rep f' (cv kc) (fun a => hat c a * Rc a)%Qc).
    { eapply rep_scope.
      - eapply rep_ext; [exact Rf'|]. intros a Ra. cbn beta. rewrite (PM a Ra).
        destruct (Qc_eq_dec (msg c a) 0%Qc) as [Z|Z].
        + rewrite (hat_zero card cv sv psi psi_deps U cv_U psi_nonneg c Jc a Ra Z). ring.
        + unfold Qcdiv. rewrite (Qcmult_comm (msg c a)), <- Qcmult_assoc, Qcmult_inv_r by exact Z. ring.
      - intros v. rewrite in_app_iff, SNv. split; [intros [H|H]; auto|]. intros H.
        destruct (in_dec string_dec v (sv kc)) as [Hs|Hs]; [right; exact Hs|left; exact (K2 v H Hs)]. }
    assert (Ek1 : dget k (tnodes t1) = Some (mkC (cv k) f)).
    { rewrite (fr_nodes _ _ _ _ FS); [exact Ek|]. intros [E|[]]. congruence. }
    destruct (PO _ Hc fuel (Some k) t1 f' Rc) as (t2 & E2 & F2 & Fi); auto.
    { apply Fu; left; reflexivity. }
    { rewrite (skel_adj _ _ (fr_skel _ _ _ _ FS)). exact Adc. }
    { intros d Hd. rewrite Forall_forall in H5. eapply pulled_frame; [apply H5, Hd| |].
      - intros x Hx. apply (fr_nodes _ _ _ _ FS). intros [<-|[]].
        inversion NDc as [|? ? N _]; subst. apply N, in_flat_map; eauto.
      - intros x y Hx. apply (fr_edges _ _ _ _ FS). intros [<-|[<-|[]]].
        + apply Nk, in_or_app. left. right. apply in_flat_map; eauto.
        + inversion NDc as [|? ? N _]; subst. apply N, in_flat_map; eauto. }
    { cbn [rkey]. apply outside_deps; [exact psi_deps|exact J|exact DR]. }
    { cbn [rkey]. apply (send_node k kc new f' t _ H1). }
    assert (Nk1 : ~ In k (rkeys c)) by (intros H; apply Nk, in_or_app; auto).
    assert (Ek2 : dget k (tnodes t2) = Some (mkC (cv k) f)).
    { rewrite (fr_nodes _ _ _ _ F2); assumption. }
    destruct (IH (done ++ [c])) with (fuel := fuel) (t := t2) as (t3 & E3 & F3 & Ed & Fis); auto.
    { rewrite <- app_assoc. reflexivity. }
    { intros d Hd. apply Fu. right; exact Hd. }
    { rewrite (skel_adj _ _ (fr_skel _ _ _ _ F2)), (skel_adj _ _ (fr_skel _ _ _ _ FS)). exact Adcs. }
    { constructor; [|exact NDcs]. intros H. apply Nk, in_or_app; auto. }
    { rewrite Forall_forall in Plcs |- *. intros d Hd.
      assert (Hx' : forall x, In x (rkeys d) -> ~ In x (rkeys c)).
      { intros x Hx H. apply (DJ x H). apply in_flat_map; eauto. }
      assert (Hk : forall x, In x (rkeys d) -> x <> k).
      { intros x Hx ->. apply Nk, in_or_app. right. apply in_flat_map; eauto. }
      eapply pulled_frame; [apply Plcs, Hd| |].
      - intros x Hx. rewrite (fr_nodes _ _ _ _ F2) by auto. apply (fr_nodes _ _ _ _ FS).
        intros [<-|[]]. apply (Hx' kc Hx). left; reflexivity.
      - intros x y Hx. rewrite (fr_edges _ _ _ _ F2) by auto. apply (fr_edges _ _ _ _ FS).
        intros [E|[<-|[]]]; [exact (Hk x Hx (eq_sym E))|]. apply (Hx' kc Hx). left; reflexivity. }
    exists t3. cbn [map each]. cbn [rkey c]. rewrite Es. fold t1. cbn [rkey c] in E2. rewrite E2.
    split; [exact E3|]. split; [|split].
    + eapply frame_trans; [|eapply frame_trans].
      * eapply frame_incl; [exact FS| |].
        -- intros x [<-|[]]. cbn [flat_map]. apply in_or_app. left; left; reflexivity.
        -- intros x [<-|[<-|[]]]; cbn [flat_map]; [left; reflexivity|right; apply in_or_app; left; left; reflexivity].
      * eapply frame_incl; [exact F2| |]; intros x Hx; cbn [flat_map]; [|right]; apply in_or_app; auto.
      * eapply frame_incl; [exact F3| |]; cbn [flat_map].
        -- intros x Hx. apply in_or_app; auto.
        -- intros x [<-|Hx]; [left; reflexivity|right; apply in_or_app; auto].
    + constructor; [|exact Ed]. exists new. cbn [rkey c]. split.
      * rewrite eget_sym. assert (Nkcs : ~ In kc (k :: flat_map rkeys cs)).
        { intros [E|H]; [congruence|]. apply (DJ kc); [left; reflexivity|exact H]. }
        rewrite (eget_sym k kc), (fr_edges _ _ _ _ F3) by exact Nkcs.
        rewrite (eget_sym kc k), (fr_edges _ _ _ _ F2) by exact Nk1.
        apply (send_edge k kc new f' t _ H3').
      * eapply rep_scope; [|exact SNv]. eapply rep_ext; [exact Rn|]. intros a Ra. cbn beta.
        rewrite (sum_over_ext card _ _ (mg R (RT k (done ++ c :: cs)) (cv k))).
        -- apply mg_mg; auto. cbn [HuginPure.V]. apply incl_appl, incl_refl.
        -- intros a'. rewrite mg_node; [apply Qcmult_comm|exact psi_deps|exact J|exact DR].
    + constructor; [|exact Fis]. eapply final_frame.
      * eapply final_ext; [exact Jc| |exact Fi]. intros X a IX _.
        apply mg_child; [exact psi_deps|exact J|exact DR|exact IX].
      * intros x Hx. apply (fr_nodes _ _ _ _ F3). apply DJ, Hx.
      * intros x y Hx. apply (fr_edges _ _ _ _ F3). intros [<-|H]; [exact (Nk1 Hx)|exact (DJ x Hx H)].
Qed.

Lemma push_spec r : push_ok r.
Proof.
  induction r as [k cs IH] using rtree_ind'. intros fuel p t f R Fu Ad ND J SNE Pl DR Ek Rf.
  cbn [rkey rkeys length] in *. destruct fuel as [|fuel]; [lia|].
  inversion Ad as [? ? ? Af Ac]; subst.
  destruct (push_children k cs R f J SNE DR Rf IH cs [] eq_refl fuel t) as (t' & E & F & Ed & Fi); auto.
  { intros c Hc. assert (L := sum_S_length rkeys c cs Hc). lia. }
  { apply Forall_forall. exact Pl. }
  exists t'. split; [|split].
  - cbn [push]. rewrite Af. exact E.
  - eapply frame_incl; [exact F| |]; intros x Hx; [right; exact Hx|exact Hx].
  - econstructor.
    + rewrite (fr_nodes _ _ _ _ F); [exact Ek|]. inversion ND; assumption.
    + eapply rep_ext; [exact Rf|]. intros a _. rewrite mg_node; [apply Qcmult_comm|exact psi_deps|exact J|exact DR].
    + exact Ed.
    + exact Fi.
Qed.

(** ** Both passes from the root *)
Theorem passes_spec k cs t f fuel : length (rkeys (RT k cs)) <= fuel ->
  adjok (tadj t) None (RT k cs) -> NoDup (rkeys (RT k cs)) -> rjt (RT k cs) -> seps_ne (RT k cs) ->
  sv k = [] -> k <> "" -> incl (sc k) (cv k) ->
  (forall v, In v (cv k) -> In v (scope (RT k cs))) ->
  dget k (tnodes t) = Some (mkC (cv k) f) -> rep f (sc k) (psi k) -> Forall (ready t k) cs ->
  exists t1 t2, pull fuel k None t = (t1, Ok tt) /\ push fuel k None t1 = (t2, Ok tt) /\
    frame t t2 (rkeys (RT k cs)) (rkeys (RT k cs)) /\ final (mg (fun _ => 1%Qc) (RT k cs)) t2 (RT k cs).
Proof.
  intros Fu Ad ND J SNE S0 Nk H3 H4 Ek Rf Re. cbn [rkeys length] in *. destruct fuel as [|fuel]; [lia|].
  inversion Ad as [? ? ? Af Ac]; subst. assert (J0 := J). apply rjt_inv in J0 as (Nc & I & Js & Is & _ & _).
  destruct (pull_children k cs (proj2 (Forall_forall _ _) (fun r _ => pull_spec r)) fuel t f (sc k) (psi k) (cv k))
    as (t1 & f1 & E1 & F1 & Pl & Ek1 & Rk); auto.
  { intros c Hc. assert (L := sum_S_length rkeys c cs Hc). lia. }
  assert (SC : forall v, In v (scope (RT k cs)) <-> In v (cv k)).
  { intros v. split; [|apply H4]. intros Hv. cbn [scope_of] in Hv. apply in_app_or in Hv as [Hv|Hv]; [apply H3, Hv|].
    apply in_flat_map in Hv as (c & Hc & Hv). apply filter_In in Hv as [_ Hv]. apply mem_In in Hv. rewrite Forall_forall in Is. exact (Is c Hc v Hv). }
  assert (Rk' : rep f1 (cv k) (hat (RT k cs))) by (eapply rep_scope; [exact Rk|exact SC]).
  destruct (push_spec (RT k cs) (S fuel) None t1 f1 (fun _ => 1%Qc)) as (t2 & E2 & F2 & Fi); auto.
  - rewrite (skel_adj _ _ (fr_skel _ _ _ _ F1)). exact Ad.
  - intros c Hc. rewrite Forall_forall in Pl. apply Pl, Hc.
  - intros a a' _. reflexivity.
  - cbn [rkey]. eapply rep_ext; [exact Rk'|]. intros; ring.
  - exists t1, t2. split; [|split; [exact E2|split; [|exact Fi]]].
    + cbn [pull]. rewrite Af, E1. reflexivity.
    + eapply frame_trans; [exact F1|exact F2].
Qed.

End Hugin.
