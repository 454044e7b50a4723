(** The snapshots of reachable networks that the inference code works on. *)
From Verif Require Import Base BaseFacts NDArray NDArrayFacts Factor Exact Spec OrderSpec TreeSpec Node Network NetSpec NetFacts
  NetInv NetOps NetOps2 NetRename NetTop.

Lemma deref_ok h i n : nth_error h i = Some n -> deref h i = n.
Proof. intros H. unfold deref. apply nth_error_nth, H. Qed.

Lemma view_node w d : consistent w -> (In d (bnodes (view w)) <->
  exists v i n, holds w v i n /\ d = snapshot_node (whp w) n).
Proof.
  intros C. cbn. rewrite in_map_iff. split.
  - intros ((v & i) & <- & Ip). apply In_dget in Ip; [|apply C]. destruct (co_named w C v i Ip) as (n & Hn & _).
    exists v, i, n. split; [split; assumption|]. cbn. rewrite (deref_ok _ _ _ Hn). reflexivity.
  - intros (v & i & n & [D Hn] & ->). exists (v, i). cbn. rewrite (deref_ok _ _ _ Hn). split; [reflexivity|]. apply dget_In, D.
Qed.

Lemma view_names w : consistent w -> bnames (view w) = dkeys (lookup (wnet w)).
Proof.
  intros C. unfold bnames. cbn. rewrite map_map. unfold dkeys. apply map_ext_in. intros (v & i) Ip. cbn.
  apply In_dget in Ip; [|apply C]. destruct (co_named w C v i Ip) as (n & Hn & E). rewrite (deref_ok _ _ _ Hn). exact E.
Qed.

(** The value list shown for a parent is that of the network's node. *)
Lemma parent_shown w v i n q : inv w -> holds w v i n -> In q (nporder n) ->
  exists o m, holds w q o m /\ parent_values (whp w) n q = Ok (nvalues m).
Proof.
  intros I H Iq. pose proof (iv_c w I) as C. apply (co_parents w C v i n q H) in Iq.
  destruct (co_ends w C q v Iq) as [Kq _]. destruct (in_lookup w C q Kq) as (o & m & Hm). exists o, m. split; [exact Hm|].
  assert (D : dget q (nparents n) = Some o) by (apply (co_pdict w C v i n q o H); split; [exact Iq|apply Hm]).
  unfold parent_values, dget_err, hget, values_attr. rewrite D. cbn. rewrite (proj2 Hm). cbn.
  rewrite (inv_discrete w I q o m Hm). reflexivity.
Qed.

(** A name's value list. *)
Definition vals_of (w : world) (q : string) : list string :=
  match dget q (lookup (wnet w)) with
  | Some i => match nth_error (whp w) i with Some n => nvalues n | None => [] end
  | None => []
  end.

Lemma vals_of_holds w v i n : holds w v i n -> vals_of w v = nvalues n.
Proof. intros [D H]. unfold vals_of. rewrite D, H. reflexivity. Qed.

Lemma size_vals w q : size w q = length (vals_of w q).
Proof. unfold size, vals_of. destruct (dget q _); [|reflexivity]. destruct (nth_error _ _); reflexivity. Qed.

Lemma parent_values_vals w v i n q : inv w -> holds w v i n -> In q (nporder n) ->
  parent_values (whp w) n q = Ok (vals_of w q).
Proof.
  intros I H Iq. destruct (parent_shown w v i n q I H Iq) as (o & m & Hm & ->). rewrite (vals_of_holds w q o m Hm). reflexivity.
Qed.

Lemma shown_parents w v i n : inv w -> holds w v i n ->
  dn_parents (snapshot_node (whp w) n) = map (fun q => (q, vals_of w q)) (nporder n).
Proof.
  intros I H. cbn. apply map_ext_in. intros q Iq. rewrite (parent_values_vals w v i n q I H Iq). reflexivity.
Qed.

Lemma shown_names w v i n : inv w -> holds w v i n -> map fst (dn_parents (snapshot_node (whp w) n)) = nporder n.
Proof. intros I H. cbn. rewrite map_map. cbn. apply map_id. Qed.

Lemma table_array w i n : inv w -> nth_error (whp w) i = Some n -> nkind n = KDiscrete ->
  shape (tarr (ncpd n)) = tshape (ncpd n) /\ real_array (tarr (ncpd n)).
Proof. intros I H K. destruct (iv_s w I i n H K) as [(int & a & -> & R) _]. split; [reflexivity|exact R]. Qed.

(** All value lists are non-empty and without duplicates; no node is its own parent. *)
Record tidy (w : world) : Prop := {
  ti_values : forall v i n, holds w v i n -> nvalues n <> [] /\ NoDup (nvalues n);
  ti_loops : forall v, ~ edge w v v
}.

Theorem view_wf w : reached w -> tidy w -> wf_bn (view w) /\ wf_graph (view w) /\ edges_match (view w).
Proof.
  intros R T. pose proof (reached_inv w R) as I. pose proof (iv_c w I) as C.
  split; [|split].
  - constructor; [rewrite view_names by exact C; apply C|]. intros d Hd. apply (view_node w d C) in Hd.
    destruct Hd as (v & i & n & H & ->). destruct (ti_values w T v i n H) as [NE ND]. pose proof (named w C v i n H) as NM.
    pose proof (inv_discrete w I v i n H) as K. destruct (table_array w i n I (proj2 H) K) as [SH RA].
    constructor.
    + split; assumption.
    + rewrite (shown_names w v i n I H). cbn [dn_name snapshot_node]. constructor; [|eapply C, H].
      rewrite NM. intros X. apply (co_parents w C v i n v H) in X. exact (ti_loops w T v X).
    + intros p vals Ip. rewrite (shown_parents w v i n I H) in Ip. apply in_map_iff in Ip. destruct Ip as (q & E & Iq).
      injection E as -> <-. destruct (parent_shown w v i n p I H Iq) as (o & m & Hm & _).
      exists (snapshot_node (whp w) m). split; [apply (view_node w _ C); exists p, o, m; auto|].
      split; [exact (named w C p o m Hm)|]. symmetry. apply (vals_of_holds w p o m Hm).
    + cbn [map]. rewrite (shown_parents w v i n I H), map_map. cbn [dn_cpd snapshot_node fst snd dn_values].
      rewrite SH. destruct (iv_f w I v i n H) as [_ ->]. unfold right_shape. destruct (nvalues n) as [|x l] eqn:EV; [contradiction|].
      rewrite <- EV. cbn [app]. f_equal. apply map_ext. apply size_vals.
    + exact RA.
    + rewrite (shown_names w v i n I H). cbn [dn_pdict snapshot_node]. apply NoDup_Permutation; [eapply C, H|eapply C, H|].
      intros q. rewrite (co_parents w C v i n q H). split.
      * intros Iq. destruct (dget_key _ _ Iq) as (o & D). apply (co_pdict w C v i n q o H) in D. apply D.
      * intros E. destruct (co_ends w C q v E) as [Kq _]. destruct (dget_key _ _ Kq) as (o & D).
        eapply dget_Some_key. apply (co_pdict w C v i n q o H). split; [exact E|exact D].
  - constructor.
    + rewrite view_names by exact C. cbn. apply NoDup_Permutation; [apply C|apply C|]. intros q.
      split; intros X; destruct (dget_key _ _ X) as (o & D); apply (co_same w C) in D; eapply dget_Some_key, D.
    + rewrite view_names by exact C. apply C.
    + rewrite view_names by exact C. intros u v E. cbn in E. destruct (co_ends w C u v E) as [A B].
      split; [exact A|]. split; [exact B|]. intros ->. exact (ti_loops w T v E).
  - intros u v. cbn [bedges view]. split.
    + intros E. destruct (co_ends w C u v E) as [_ Kv]. destruct (in_lookup w C v Kv) as (i & n & H).
      exists (snapshot_node (whp w) n). split; [apply (view_node w _ C); exists v, i, n; auto|].
      split; [exact (named w C v i n H)|]. rewrite (shown_names w v i n I H). apply (co_parents w C v i n u H), E.
    + intros (d & Hd & E & Iu). apply (view_node w d C) in Hd. destruct Hd as (x & i & n & H & ->).
      rewrite (shown_names w x i n I H) in Iu. cbn in E. rewrite (named w C x i n H) in E. subst x.
      apply (co_parents w C v i n u H), Iu.
Qed.

(** Renaming. *)
Definition rename_state (s new : string) (st : dict string) : dict string :=
  map (fun p => (ren s new (fst p), snd p)) st.

Lemma look_renamed s new st v (K : list string) :
  (forall a b, In a K -> In b K -> ren s new a = ren s new b -> a = b) ->
  incl (dkeys st) K -> In v K -> look (rename_state s new st) (ren s new v) = look st v.
Proof.
  intros INJ IK Iv. unfold look, rename_state. induction st as [|(k & x) st IH]; [reflexivity|].
  cbn. destruct (String.eqb v k) eqn:E.
  - apply String.eqb_eq in E. subst k. rewrite eqb_refl_s. reflexivity.
  - rewrite eqb_neq_s; [apply IH; intros z Hz; apply IK; right; exact Hz|].
    intros X. apply String.eqb_neq in E. apply E. apply INJ; [exact Iv|apply IK; left; reflexivity|exact X].
Qed.

Theorem rename_keeps w s new i n : reached w -> holds w s i n -> s = new \/ ~ In new (dkeys (lookup (wnet w))) ->
  snd (exec w (ChangeName (ByName s) new)) = Ok tt /\
  let w' := fst (exec w (ChangeName (ByName s) new)) in
  Permutation (lookup (wnet w')) (map (fun p => (ren s new (fst p), snd p)) (lookup (wnet w))) /\
  (forall a b, edge w' a b <-> exists a0 b0, edge w a0 b0 /\ a = ren s new a0 /\ b = ren s new b0) /\
  (forall v j m, holds w v j m -> exists m', holds w' (ren s new v) j m' /\ nname m' = ren s new v /\
     nkind m' = nkind m /\ nvalues m' = nvalues m /\ ncpd m' = ncpd m /\ nvalid m' = nvalid m /\ nmeta m' = nmeta m /\
     nporder m' = map (ren s new) (nporder m)) /\
  forall st, incl (dkeys st) (dkeys (lookup (wnet w))) ->
    joint (view w') (rename_state s new st) = joint (view w) st.
Proof.
  intros R H FR. pose proof (reached_inv w R) as I. pose proof (iv_c w I) as C.
  destruct (rename_run w I s new i n H FR) as (es & h' & E & NE & ES & HP). cbn [exec]. rewrite E. cbn [fst snd].
  split; [reflexivity|]. cbv zeta.
  pose proof (after_inv w I s new i n H FR es h' NE ES HP) as I'.
  pose proof (after_ren w I s new i n H FR es h') as AR.
  pose proof (after_get w I s new i n H es h') as AG.
  set (w' := mkW h' (mkNet (dset new i (ddel s (lookup (wnet w)))) (dset new i (ddel s (ggraph (wnet w)))) es
                   (bname (wnet w)) (bmeta (wnet w)))) in *.
  pose proof (iv_c w' I') as C'.
  assert (INJ := ren_inj w s new FR).
  assert (PM : Permutation (lookup (wnet w')) (map (fun p => (ren s new (fst p), snd p)) (lookup (wnet w)))).
  { apply NoDup_Permutation.
    - apply (NoDup_map_inv fst). apply (co_lookup w' C').
    - apply (NoDup_map_inv snd). rewrite map_map. cbn.
      assert (G : forall l, NoDup (dkeys l) -> (forall v o, In (v, o) l -> dget v (lookup (wnet w)) = Some o) -> NoDup (map (fun x : string * oid => snd x) l)).
      { clear -C. induction l as [|(v & o) l IH]; intros ND A; cbn; constructor.
        - intros X. apply in_map_iff in X. destruct X as ((u & o') & Eo & Iu). cbn in Eo. subst o'.
          cbn in ND. apply NoDup_cons_iff in ND. destruct ND as [NI _]. apply NI.
          assert (v = u) by (apply (lookup_inj w C v u o); apply A; [left; reflexivity|right; exact Iu]). subst u.
          apply (in_map fst) in Iu. exact Iu.
        - apply IH; [cbn in ND; apply NoDup_cons_iff in ND; apply ND|]. intros; apply A; right; assumption. }
      apply G; [apply C|]. intros v o X. apply In_dget; [apply C|exact X].
    - intros (v & o). rewrite in_map_iff. split.
      + intros X. apply In_dget in X; [|apply C']. apply AG in X. destruct X as (x & D & ->). exists (x, o).
        split; [reflexivity|apply dget_In, D].
      + intros ((x & o') & X & Ix). injection X as <- <-. apply dget_In. apply AR. apply In_dget; [apply C|exact Ix]. }
  assert (HH : forall v j m, holds w v j m -> exists m', holds w' (ren s new v) j m' /\ nname m' = ren s new v /\
     nkind m' = nkind m /\ nvalues m' = nvalues m /\ ncpd m' = ncpd m /\ nvalid m' = nvalid m /\ nmeta m' = nmeta m /\
     nporder m' = map (ren s new) (nporder m)).
  { intros v j m Hm. exists (moved w s new i j m).
    assert (HH' : holds w' (ren s new v) j (moved w s new i j m)).
    { split; [apply AR, Hm|]. unfold w'. cbn [whp]. rewrite HP, (proj2 Hm). reflexivity. }
    split; [exact HH'|]. pose proof (named w C v j m Hm) as NM. subst v.
    destruct (moved_ident w I s new i n H j m Hm) as (B1 & B2 & B3 & B4 & B5 & B6).
    rewrite (moved_porder w I s new i (nname m) j m Hm). repeat split; assumption. }
  split; [exact PM|]. split; [intros a b; apply ES|]. split; [exact HH|].
  intros st IK. unfold joint. cbn [bnodes view]. rewrite !map_map.
  rewrite (qprod_perm _ _ (Permutation_map (fun p => entry (snapshot_node (whp w') (deref (whp w') (snd p))) (rename_state s new st)) PM)).
  rewrite map_map. f_equal. apply map_ext_in. intros (v & j) Iv. cbn [fst snd]. apply In_dget in Iv; [|apply C].
  destruct (co_named w C v j Iv) as (m & Hm & NM). assert (HM : holds w v j m) by (split; assumption).
  destruct (HH v j m HM) as (m' & HM' & B1 & B2 & B3 & B4 & B5 & B6 & B7).
  rewrite (deref_ok _ _ _ Hm), (deref_ok _ _ _ (proj2 HM')). unfold entry.
  rewrite (shown_parents w' (ren s new v) j m' I' HM'), (shown_parents w v j m I HM).
  cbn [dn_cpd dn_name dn_values snapshot_node map fst snd]. rewrite B4, B3, B1, B7, NM. f_equal. f_equal.
  - f_equal. apply (look_renamed s new st v (dkeys (lookup (wnet w))) INJ IK). eapply holds_in, HM.
  - rewrite !map_map. apply map_ext_in. intros q Iq. cbn [fst snd].
    assert (Kq : In q (dkeys (lookup (wnet w)))).
    { apply (co_parents w C v j m q HM) in Iq. apply (co_ends w C q v Iq). }
    f_equal.
    + apply (look_renamed s new st q _ INJ IK Kq).
    + destruct (in_lookup w C q Kq) as (o & mq & Hq). destruct (HH q o mq Hq) as (mq' & Hq' & _ & _ & Eq & _).
      rewrite (vals_of_holds w' _ o mq' Hq'), (vals_of_holds w q o mq Hq). exact Eq.
Qed.
