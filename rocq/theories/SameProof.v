(** Networks that say the same give the same answers. *)
From Verif Require Import Base BaseFacts NDArray NDArrayFacts Factor Exact Spec SpecFacts Node Network NetSpec NetFacts NetInv NetTop NetView NetTable
  Xml IO IOText IOSpec IOProof IOMore LawKernel SameSpec.

Lemma states_values l l' : Forall2 (fun p p' => fst p = fst p' /\ Permutation (snd p) (snd p')) l l' ->
  forall F : dict string -> Qc, qsum (map F (states l)) = qsum (map F (states l')).
Proof.
  induction 1 as [|(v, xs) (v', ys) l l' [E P] _ IH]; intros F; [reflexivity|]. cbn [fst snd] in E, P. subst v'. cbn [states].
  rewrite !qsum_flat_map. rewrite (qsum_perm _ _ (Permutation_map _ P)). apply qsum_map_ext. intros x _. rewrite !map_map. apply IH.
Qed.

Lemma state_whole b s : NoDup (bnames b) -> In s (states (bvars b)) -> whole b s.
Proof.
  intros ND S n Hn. destruct (state_complete (bvars b) s) with (v := dn_name n) (l := dn_values n) as (x & E & I).
  - unfold bvars. rewrite map_map. exact ND.
  - exact S.
  - apply in_map_iff. exists n. auto.
  - exists x. auto.
Qed.

Lemma aligned b b' : same_model b b' -> exists l, Permutation (bnodes b) l /\
  Forall2 (fun n n' => In n (bnodes b) /\ In n' (bnodes b') /\ dn_name n = dn_name n') l (bnodes b').
Proof.
  intros S. destruct (Permutation_map_inv dn_name (bnodes b) (Permutation_sym (sm_names _ _ S))) as (l & E & P). exists l. split; [exact P|].
  assert (I : forall n, In n l -> In n (bnodes b)) by (intros n; apply (Permutation_in _ (Permutation_sym P))). clear P.
  assert (G : forall l l', (forall n, In n l -> In n (bnodes b)) -> incl l' (bnodes b') -> map dn_name l' = map dn_name l ->
    Forall2 (fun n n' => In n (bnodes b) /\ In n' (bnodes b') /\ dn_name n = dn_name n') l l').
  { clear. induction l as [|n l IH]; intros [|n' l'] I I' E; try discriminate; constructor; cbn [map] in E.
    - injection E as E _. split; [apply I; left; reflexivity|]. split; [apply I'; left; reflexivity|]. symmetry. exact E.
    - injection E as _ E. apply IH; [intros m Hm; apply I; right; exact Hm|intros m Hm; apply I'; right; exact Hm|exact E]. }
  apply G; [exact I|apply incl_refl|exact E].
Qed.

Theorem same_model_mass b b' ev ev' : NoDup (bnames b) -> same_model b b' -> same_evidence b b' ev ev' -> forall q, mass b' ev' q = mass b ev q.
Proof.
  intros ND S SE q. destruct (aligned b b' S) as (l & P & F). unfold mass. rewrite !qsum_filter.
  assert (W : forall s, whole b s -> weight b' ev' s = weight b ev s).
  { intros s Hs. unfold weight, joint. rewrite (qprod_perm _ _ (Permutation_map (fun n => entry n s) P)).
    rewrite (qprod_perm _ _ (Permutation_map (fun n => evidence_weight ev n s) P)).
    assert (E : map (fun n => entry n s) l = map (fun n => entry n s) (bnodes b') /\
                map (fun n => evidence_weight ev n s) l = map (fun n => evidence_weight ev' n s) (bnodes b')).
    { clear P. induction F as [|n n' l l' (A & B & D) F [IH1 IH2]]; [split; reflexivity|]. cbn [map]. rewrite IH1, IH2.
      rewrite (sm_entry _ _ S n n' s A B D Hs), (SE n n' s A B D Hs). split; reflexivity. }
    destruct E as [-> ->]. reflexivity. }
  set (G := fun s => if agrees q s then weight b ev s else 0%Qc).
  transitivity (qsum (map G (states (bvars b')))).
  - assert (ND' : NoDup (bnames b')) by exact (Permutation_NoDup (sm_names _ _ S) ND).
    apply qsum_map_ext. intros s Hs. unfold G. destruct (agrees q s); [|reflexivity]. apply W.
    intros n Hn. assert (Hn' : In (dn_name n) (bnames b')) by (apply (Permutation_in _ (sm_names _ _ S)); apply in_map; exact Hn).
    apply in_map_iff in Hn' as (n' & E & Hn'). destruct (state_whole b' s ND' Hs n' Hn') as (x & D & I). exists x. rewrite <- E. split; [exact D|].
    apply (Permutation_in x (Permutation_sym (sm_values _ _ S n n' Hn Hn' (eq_sym E)))). exact I.
  - symmetry. transitivity (qsum (map G (states (map (fun n => (dn_name n, dn_values n)) l)))).
    + apply states_perm; [apply Permutation_map, P|unfold bvars; rewrite map_map; exact ND|].
      intros s s' H. unfold G. rewrite (agrees_ext q s s' H). destruct (agrees q s'); [|reflexivity]. unfold weight, joint.
      f_equal; f_equal; apply map_ext; intros n; [apply entry_ext, H|apply evidence_weight_ext, H].
    + apply states_values. clear P W G. unfold bvars. induction F as [|n n' l l' (A & B & D) F IH]; constructor; [|exact IH].
      cbn [fst snd]. split; [exact D|exact (sm_values _ _ S n n' A B D)].
Qed.

Theorem same_model_posterior b b' ev ev' : NoDup (bnames b) -> same_model b b' -> same_evidence b b' ev ev' ->
  forall q, posterior b' ev' q = posterior b ev q.
Proof. intros ND S SE q. unfold posterior. rewrite !(same_model_mass b b' ev ev' ND S SE). reflexivity. Qed.

Lemma same_instances b b' Q Q' q : wf_bn b -> wf_bn b' -> same_model b b' -> incl Q (bnames b) -> Permutation Q Q' -> is_inst b Q q -> is_inst b' Q' q.
Proof.
  intros WB WB' S I P (A & B & D). split; [exact A|]. split.
  - intros v. rewrite B. split; apply Permutation_in; [exact P|symmetry; exact P].
  - intros v x H. specialize (D v x H). assert (K : In v (bnames b)) by (apply I, B; unfold dkeys; change v with (fst (v, x)); apply in_map, H).
    assert (K' : In v (bnames b')) by exact (Permutation_in _ (sm_names _ _ S) K).
    apply in_map_iff in K as (n & E & Hn). apply in_map_iff in K' as (n' & E' & Hn'). subst v.
    rewrite (values_of_node b WB n Hn) in D. rewrite <- E', (values_of_node b' WB' n' Hn').
    exact (Permutation_in x (sm_values _ _ S n n' Hn Hn' (eq_sym E')) D).
Qed.

Lemma same_reports b b' ev ev' Q Q' f f' : wf_bn b -> wf_bn b' -> same_model b b' -> same_evidence b b' ev ev' -> incl Q (bnames b) -> Permutation Q Q' ->
  reports b f Q (posterior b ev) -> reports b' f' Q' (posterior b' ev') -> forall q, is_inst b Q q -> potential_at f' q = potential_at f q.
Proof.
  intros WB WB' S SE I P R R' q Hq.
  rewrite (proj2 (proj2 (proj2 (proj2 (proj2 (proj2 R))))) q Hq).
  rewrite (proj2 (proj2 (proj2 (proj2 (proj2 (proj2 R'))))) q (same_instances b b' Q Q' q WB WB' S I P Hq)).
  apply same_model_posterior; [apply WB|exact S|exact SE].
Qed.

(** ** Networks of the API *)
Lemma view_node w n : consistent w -> In n (bnodes (view w)) -> exists v i m, holds w v i m /\ n = snapshot_node (whp w) m.
Proof.
  intros C H. rewrite (bnodes_shown w C) in H. apply in_map_iff in H as (v & <- & K). destruct (in_lookup w C v K) as (i & m & Hm).
  exists v, i, m. split; [exact Hm|exact (shown_holds w v i m Hm)].
Qed.

Lemma view_names w : consistent w -> bnames (view w) = dkeys (lookup (wnet w)).
Proof.
  intros C. unfold bnames. rewrite (bnodes_shown w C), map_map. rewrite <- (map_id (dkeys (lookup (wnet w)))) at 2. apply map_ext_in. intros v Hv.
  destruct (in_lookup w C v Hv) as (i & n & H). rewrite (shown_holds w v i n H). exact (named w C v i n H).
Qed.

Lemma whole_holds w v i n s : consistent w -> holds w v i n -> whole (view w) s -> exists x, dget v s = Some x /\ In x (nvalues n).
Proof.
  intros C H W. destruct (W (snapshot_node (whp w) n)) as (x & D & I).
  - rewrite (bnodes_shown w C). apply in_map_iff. exists v. split; [exact (shown_holds w v i n H)|exact (dget_Some_key _ _ _ (proj1 H))].
  - exists x. change (dn_name (snapshot_node (whp w) n)) with (nname n) in D. rewrite (named w C v i n H) in D. auto.
Qed.

Lemma whole_legal w v i n s : inv w -> holds w v i n -> whole (view w) s -> legal w n s /\ forall q, In q (nporder n) -> In q (dkeys s).
Proof.
  intros I H W. assert (C := iv_c w I). rewrite (and_comm (legal w n s)). 
  assert (X : forall q, In q (nporder n) -> In q (dkeys s) /\ In (look s q) (vals_of w q)).
  { intros q Hq. apply (co_parents w C v i n q H) in Hq. destruct (co_ends w C q v Hq) as [K _]. destruct (in_lookup w C q K) as (j & m & Hm).
    destruct (whole_holds w q j m s C Hm W) as (x & D & V). split; [exact (dget_Some_key _ _ _ D)|]. unfold look. rewrite D, (vals_of_holds w q j m Hm). exact V. }
  split; [intros q Hq; apply X, Hq|]. split; [|intros q Hq; apply X, Hq].
  destruct (whole_holds w v i n s C H W) as (x & D & V). unfold look. rewrite (named w C v i n H), D. exact V.
Qed.

Theorem answers_model w w' : inv w -> inv w' -> same_answers w w' -> same_model (view w) (view w').
Proof.
  intros I I' [N V P]. assert (C := iv_c w I). assert (C' := iv_c w' I').
  assert (X : forall n n', In n (bnodes (view w)) -> In n' (bnodes (view w')) -> dn_name n = dn_name n' ->
    exists v i m i' m', holds w v i m /\ holds w' v i' m' /\ n = snapshot_node (whp w) m /\ n' = snapshot_node (whp w') m').
  { intros n n' Hn Hn' E. destruct (view_node w n C Hn) as (v & i & m & Hm & ->). destruct (view_node w' n' C' Hn') as (v' & i' & m' & Hm' & ->).
    change (nname m = nname m') in E. rewrite (named w C v i m Hm), (named w' C' v' i' m' Hm') in E. subst v'. exists v, i, m, i', m'. auto. }
  split.
  - rewrite (view_names w C), (view_names w' C'). exact N.
  - intros n n' Hn Hn' E. destruct (X n n' Hn Hn' E) as (v & i & m & i' & m' & H & H' & -> & ->). exact (V v i m i' m' H H').
  - intros n n' s Hn Hn' E W. destruct (X n n' Hn Hn' E) as (v & i & m & i' & m' & H & H' & -> & ->).
    assert (W' : whole (view w') s).
    { intros k Hk. destruct (view_node w' k C' Hk) as (u & j & p & Hp & ->). change (exists x, dget (nname p) s = Some x /\ In x (nvalues p)).
      rewrite (named w' C' u j p Hp). assert (K : In u (dkeys (lookup (wnet w)))) by (apply (Permutation_in _ (Permutation_sym N)); exact (dget_Some_key _ _ _ (proj1 Hp))).
      destruct (in_lookup w C u K) as (j0 & p0 & H0). destruct (whole_holds w u j0 p0 s C H0 W) as (x & D & A). exists x. split; [exact D|].
      exact (Permutation_in x (V u j0 p0 j p H0 Hp) A). }
    destruct (whole_legal w v i m s I H W) as [L K]. destruct (whole_legal w' v i' m' s I' H' W') as [L' K'].
    assert (G := P v i m i' m' s H H' W). fold (ones s) in G. rewrite (get_full w v i m s I H L K), (get_full w' v i' m' s I' H' L' K') in G.
    injection G as G. exact G.
Qed.

Theorem model_answers w w' : inv w -> inv w' -> same_model (view w) (view w') -> same_answers w w'.
Proof.
  intros I I' [N V P]. assert (C := iv_c w I). assert (C' := iv_c w' I'). rewrite (view_names w C), (view_names w' C') in N.
  assert (X : forall u v i n, consistent u -> holds u v i n -> In (snapshot_node (whp u) n) (bnodes (view u)) /\ dn_name (snapshot_node (whp u) n) = v).
  { intros u v i n Cu H. split; [|exact (named u Cu v i n H)]. rewrite (bnodes_shown u Cu). apply in_map_iff. exists v.
    split; [exact (shown_holds u v i n H)|exact (dget_Some_key _ _ _ (proj1 H))]. }
  split; [exact N| |].
  - intros v i n i' n' H H'. destruct (X w v i n C H) as [A B]. destruct (X w' v i' n' C' H') as [A' B'].
    exact (V _ _ A A' (eq_trans B (eq_sym B'))).
  - intros v i n i' n' s H H' W. destruct (X w v i n C H) as [A B]. destruct (X w' v i' n' C' H') as [A' B'].
    assert (W' : whole (view w') s).
    { intros k Hk. destruct (view_node w' k C' Hk) as (u & j & p & Hp & ->). change (exists x, dget (nname p) s = Some x /\ In x (nvalues p)).
      rewrite (named w' C' u j p Hp). assert (K : In u (dkeys (lookup (wnet w)))) by (apply (Permutation_in _ (Permutation_sym N)); exact (dget_Some_key _ _ _ (proj1 Hp))).
      destruct (in_lookup w C u K) as (j0 & p0 & H0). destruct (whole_holds w u j0 p0 s C H0 W) as (x & D & Y). exists x. split; [exact D|].
      destruct (X w u j0 p0 C H0) as [A0 B0]. destruct (X w' u j p C' Hp) as [A1 B1].
      exact (Permutation_in x (V _ _ A0 A1 (eq_trans B0 (eq_sym B1))) Y). }
    destruct (whole_legal w v i n s I H W) as [L K]. destruct (whole_legal w' v i' n' s I' H' W') as [L' K']. fold (ones s).
    rewrite (get_full w v i n s I H L K), (get_full w' v i' n' s I' H' L' K'). rewrite (P _ _ s A A' (eq_trans B (eq_sym B')) W). reflexivity.
Qed.

(** Products over the nodes that are not observed. *)
Lemma same_product b b' (ev : dict string) y y' : NoDup (bnames b) -> same_model b b' -> In y (states (bvars b)) -> (forall v, dget v y = dget v y') ->
  qprod (map (fun n => entry n y') (filter (fun n => negb (dmem (dn_name n) ev)) (bnodes b'))) =
  qprod (map (fun n => entry n y) (filter (fun n => negb (dmem (dn_name n) ev)) (bnodes b))).
Proof.
  intros ND S Y E. assert (W := state_whole b y ND Y). destruct (aligned b b' S) as (l & P & F).
  assert (PF : Permutation (filter (fun n => negb (dmem (dn_name n) ev)) (bnodes b)) (filter (fun n => negb (dmem (dn_name n) ev)) l)).
  { clear F. induction P as [|n l1 l2 P IH|n m l1|l1 l2 l3 P1 IH1 P2 IH2]; cbn [filter]; [constructor| | |exact (perm_trans IH1 IH2)].
    - destruct (negb (dmem (dn_name n) ev)); [constructor|]; exact IH.
    - destruct (negb (dmem (dn_name n) ev)), (negb (dmem (dn_name m) ev)); try apply perm_swap; apply Permutation_refl. }
  rewrite (qprod_perm _ _ (Permutation_map _ PF)). clear P PF. induction F as [|n n' l l' (A & B & D) F IH]; [reflexivity|].
  cbn [filter]. rewrite <- D. destruct (negb (dmem (dn_name n) ev)); [|exact IH]. cbn [map qprod]. rewrite IH.
  rewrite (sm_entry _ _ S n n' y A B D W), (entry_ext n' y y' E). reflexivity.
Qed.
