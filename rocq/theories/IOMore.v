(** Consequences of the round trip, and the order of table entries in files. *)
From Coq Require Import Ascii.
From Verif Require Import Base BaseFacts NDArray NDArrayFacts Factor Exact Spec SpecFacts Node Network NetSpec NetFacts NetInv NetTop NetView
  Xml IO IOText IOSpec IOProof.

(** ** Sums over states do not depend on the order of variables *)
Definition extensional {A} (F : dict string -> A) : Prop := forall s s', (forall v, dget v s = dget v s') -> F s = F s'.

Lemma states_perm l l' : Permutation l l' -> NoDup (map fst l) -> forall F : dict string -> Qc, extensional F ->
  qsum (map F (states l)) = qsum (map F (states l')).
Proof.
  intros P. induction P as [|(v, xs) l l' P IH|(v, xs) (u, ys) l|l1 l2 l3 P1 IH1 P2 IH2]; intros ND F E.
  - reflexivity.
  - cbn [states]. rewrite !qsum_flat_map. apply qsum_map_ext. intros x _. rewrite !map_map. apply IH.
    + apply NoDup_cons_iff in ND. apply ND.
    + intros s s' H. apply E. intros w. cbn. destruct (String.eqb w v); [reflexivity|apply H].
  - cbn [map fst] in ND. apply NoDup_cons_iff in ND. destruct ND as [N _]. cbn [states]. rewrite !qsum_flat_map.
    rewrite (qsum_map_ext _ (fun y => qsum (map (fun x => qsum (map (fun s => F ((u, y) :: (v, x) :: s)) (states l))) xs))).
    2:{ intros y _. rewrite map_map, qsum_flat_map. apply qsum_map_ext. intros x _. rewrite map_map. reflexivity. }
    rewrite qsum_swap. apply qsum_map_ext. intros x _. rewrite map_map, qsum_flat_map. apply qsum_map_ext. intros y _.
    rewrite map_map. apply qsum_map_ext. intros s _. apply E. intros w. cbn.
    destruct (String.eqb_spec w u) as [->|]; [|reflexivity]. destruct (String.eqb_spec u v) as [->|]; [|reflexivity].
    exfalso. apply N. left. reflexivity.
  - rewrite IH1 by assumption. apply IH2; [|exact E]. exact (Permutation_NoDup (Permutation_map fst P1) ND).
Qed.

Lemma look_ext s s' v : (forall v, dget v s = dget v s') -> look s v = look s' v.
Proof. intros H. unfold look. rewrite H. reflexivity. Qed.

Lemma entry_ext n : extensional (entry n).
Proof.
  intros s s' H. unfold entry. f_equal. apply map_ext. intros p. rewrite (look_ext s s' _ H). reflexivity.
Qed.

Lemma evidence_weight_ext ev n : extensional (evidence_weight ev n).
Proof.
  intros s s' H. unfold evidence_weight. destruct (dget (dn_name n) ev) as [[x|q]|]; rewrite ?(look_ext s s' _ H); reflexivity.
Qed.

Lemma agrees_ext q : extensional (agrees q).
Proof.
  intros s s' H. unfold agrees. induction q as [|p q IH]; [reflexivity|]. cbn. rewrite IH, (look_ext s s' _ H). reflexivity.
Qed.

(** Two networks with the same variables and tables, up to the order of nodes. *)
Definition same_node (n n' : dnode) : Prop :=
  dn_name n = dn_name n' /\ dn_values n = dn_values n' /\ dn_parents n = dn_parents n' /\ dn_cpd n = dn_cpd n'.

Lemma same_mass b b' l : Forall2 same_node l (bnodes b') -> Permutation (bnodes b) l -> NoDup (bnames b) ->
  forall ev q, mass b' ev q = mass b ev q.
Proof.
  intros F P ND ev q. unfold mass. rewrite !qsum_filter.
  assert (W : forall s, weight b' ev s = weight b ev s).
  { intros s. unfold weight, joint. rewrite (qprod_perm _ _ (Permutation_map (fun n => entry n s) P)).
    rewrite (qprod_perm _ _ (Permutation_map (fun n => evidence_weight ev n s) P)).
    clear P. induction F as [|n n' l l' (A & B & D & E) F IH]; [reflexivity|]. cbn [map qprod].
    assert (X : entry n s = entry n' s) by (unfold entry; rewrite A, B, D, E; reflexivity).
    assert (Y : evidence_weight ev n s = evidence_weight ev n' s) by (unfold evidence_weight; rewrite A, B; reflexivity).
    rewrite X, Y. revert IH. generalize (qprod (map (fun n => entry n s) l')), (qprod (map (fun n => evidence_weight ev n s) l')),
      (qprod (map (fun n => entry n s) l)), (qprod (map (fun n => evidence_weight ev n s) l)). intros a b1 c d IH.
    transitivity (entry n' s * evidence_weight ev n' s * (a * b1))%Qc; [ring|]. rewrite IH. ring. }
  assert (V : Permutation (bvars b) (bvars b')).
  { unfold bvars. transitivity (map (fun n => (dn_name n, dn_values n)) l); [apply Permutation_map, P|].
    clear P. replace (map (fun n => (dn_name n, dn_values n)) l) with (map (fun n => (dn_name n, dn_values n)) (bnodes b')); [reflexivity|].
    clear W. induction F as [|n n' l l' (A & B & _) F IH]; [reflexivity|]. cbn. rewrite A, B, IH. reflexivity. }
  symmetry. rewrite (states_perm _ _ V).
  - apply qsum_map_ext. intros s _. rewrite W. reflexivity.
  - unfold bvars. rewrite map_map. exact ND.
  - intros s s' H. rewrite (agrees_ext q s s' H). destruct (agrees q s'); [|reflexivity]. unfold weight, joint.
    f_equal; f_equal; apply map_ext; intros n; [apply entry_ext, H|apply evidence_weight_ext, H].
Qed.

Lemma forall2_map_in {A B C} (P : B -> C -> Prop) (f : A -> B) (g : A -> C) l : (forall x, In x l -> P (f x) (g x)) ->
  Forall2 P (map f l) (map g l).
Proof. intros H. induction l as [|x l IH]; [constructor|]. cbn. constructor; [apply H; left; reflexivity|apply IH; intros y Hy; apply H; right; exact Hy]. Qed.

(** The node of a name, as the inference code sees it. *)
Definition shown (w : world) (v : string) : dnode :=
  snapshot_node (whp w) (deref (whp w) (match dget v (lookup (wnet w)) with Some i => i | None => 0 end)).

Lemma bnodes_shown w : consistent w -> bnodes (view w) = map (shown w) (dkeys (lookup (wnet w))).
Proof.
  intros C. cbn [bnodes view]. unfold dkeys. rewrite map_map. apply map_ext_in. intros (v, i) X. unfold shown. cbn [fst snd].
  apply In_dget in X; [|apply C]. rewrite X. reflexivity.
Qed.

Lemma shown_holds w v i n : holds w v i n -> shown w v = snapshot_node (whp w) n.
Proof. intros [D H]. unfold shown. rewrite D, (deref_ok _ _ _ H). reflexivity. Qed.

Lemma keys_perm w : consistent w -> Permutation (dkeys (lookup (wnet w))) (dkeys (ggraph (wnet w))).
Proof.
  intros C. apply NoDup_Permutation; [apply C|apply C|]. intros v. split; intros H; apply dget_key in H; destruct H as (i & D); apply (co_same w C) in D; exact (dget_Some_key _ _ _ D).
Qed.

(** Queries on the network that was read give what they give on the one written. *)
Theorem reloaded_mass meta w w' : inv w -> inv w' -> reloaded meta w w' -> forall ev q, mass (view w') ev q = mass (view w) ev q.
Proof.
  intros I I' R. pose proof (iv_c w I) as C. pose proof (iv_c w' I') as C'.
  apply same_mass with (l := map (shown w) (dkeys (ggraph (wnet w)))).
  - rewrite (bnodes_shown w' C'), (rl_lookup _ _ _ R). apply forall2_map_in. intros v Hv.
    assert (Lv : In v (dkeys (lookup (wnet w)))) by (exact (Permutation_in v (Permutation_sym (keys_perm w C)) Hv)).
    destruct (in_lookup w C v Lv) as (i & n & H). destruct (rl_node _ _ _ R v i n H) as (i' & n' & H' & _ & V & O & T & _).
    rewrite (shown_holds w v i n H), (shown_holds w' v i' n' H'). repeat split.
    + cbn. rewrite (named w C v i n H), (named w' C' v i' n' H'). reflexivity.
    + cbn. symmetry. exact V.
    + rewrite (shown_parents w v i n I H), (shown_parents w' v i' n' I' H'), O. apply map_ext_in. intros u Hu. f_equal.
      apply (co_parents w C v i n u H) in Hu. destruct (co_ends w C u v Hu) as [Ku _]. destruct (in_lookup w C u Ku) as (j & m & Hm).
      destruct (rl_node _ _ _ R u j m Hm) as (j' & m' & Hm' & _ & Vm & _). rewrite (vals_of_holds w u j m Hm), (vals_of_holds w' u j' m' Hm').
      symmetry. exact Vm.
    + cbn. rewrite T. reflexivity.
  - rewrite (bnodes_shown w C). apply Permutation_map, keys_perm, C.
  - rewrite view_names by exact C. apply C.
Qed.

Lemma map_back l : ~ In (Some ""%string) l -> map back l = l.
Proof.
  intros N. rewrite <- (map_id l) at 2. apply map_ext_in. intros x Hx. destruct x as [s|]; [|reflexivity]. destruct s; [|reflexivity]. contradiction.
Qed.

(** Nothing is lost if there is a name, no empty property and both flags are off. *)
Theorem reloaded_exact w w' : named_net w -> reloaded true w w' ->
  bname (wnet w') = bname (wnet w) /\ bmeta (wnet w') = bmeta (wnet w) /\
  forall v i n, holds w v i n -> exists i' n', holds w' v i' n' /\ nmeta n' = nmeta n.
Proof.
  intros (N & M & K) R. split; [|split].
  - rewrite (rl_name _ _ _ R). destruct (bname (wnet w)) as [s|]; [|reflexivity]. destruct s; [|reflexivity]. destruct N. reflexivity.
  - rewrite (rl_meta _ _ _ R). apply map_back, M.
  - intros v i n H. destruct (rl_node _ _ _ R v i n H) as (i' & n' & H' & _ & _ & _ & _ & _ & E). exists i', n'. split; [exact H'|].
    rewrite E. apply map_back, (K v i n H).
Qed.

(** ** The order of table entries *)
Lemma row_major_ravel dims : forall acc ix, length ix = length dims -> row_major acc dims ix = acc * prodn dims + ravel dims ix.
Proof.
  induction dims as [|d dims IH]; intros acc [|k ix] L; try discriminate; [cbn; lia|]. cbn [row_major ravel].
  rewrite IH by (cbn in L; lia). change (prodn (d :: dims)) with (d * prodn dims). lia.
Qed.

Lemma inb_app s1 s2 i1 i2 : inb s1 i1 -> inb s2 i2 -> inb (s1 ++ s2) (i1 ++ i2).
Proof. apply Forall2_app. Qed.

Section Layout.
Context {FT : FloatText}.

Lemma split_table n : ravel_F (tarr (ncpd n)) <> [] ->
  split_at space (strip (table_text n)) = map (fprint (int_table (ncpd n))) (ravel_F (tarr (ncpd n))).
Proof.
  intros N. unfold table_text. apply fields_of_line; [|apply table_solid]. destruct (ravel_F _); [contradiction|discriminate].
Qed.

End Layout.
