From Coq Require Import Field.
From Verif Require Import Base NDArray Factor Exact Spec OrderSpec TreeSpec BaseFacts NDArrayFacts FactorFacts SpecFacts FactorSpec FactorProofs Sampling MCSpec MCFacts MCProof MCTop MCChain.

Lemma dget_fold_dset {A} (l : dict A) : forall d v, NoDup (dkeys l) ->
  dget v (fold_left (fun d p => dset (fst p) (snd p) d) l d) = match dget v l with Some x => Some x | None => dget v d end.
Proof.
  induction l as [|[u x] l IH]; intros d v N; [reflexivity|]. cbn [fold_left fst snd]. inversion N as [|? ? A1 B1]; subst.
  rewrite IH by exact B1. cbn [dget]. destruct (String.eqb_spec v u) as [->|E].
  - rewrite (proj2 (dget_None u l)) by exact A1. now rewrite dget_dset_eq.
  - now rewrite dget_dset_neq.
Qed.

Section Net.
Variable b : bn.
Hypothesis SN : sampled_net b.
Let WB := sn_bn b SN.
Let WG := sn_graph b SN.
Let NN := sn_nonneg b SN.
Variable ev : state.
Variable order : list string.
Hypothesis TO : topological b order.

Let in_order v : In v order <-> In v (bnames b).
Proof. split; intros H; [eapply Permutation_in; [symmetry; apply TO|exact H]|eapply Permutation_in; [apply TO|exact H]]. Qed.

Lemma forward_weights n st x : In n (bnodes b) ->
  (forall p, In p (map fst (dn_parents n)) -> exists y, dget p st = Some y /\ In y (values_of b p)) ->
  (forall p, In p (map fst (dn_parents n)) -> look st p = look x p) ->
  forall cs, mapM (fun y => get_markov_prob n y cs (dset (dn_name n) y st) true) (dn_values n) = Ok (conditional n x).
Proof.
  intros Hn P S cs. apply mapM_total. intros y Hy. unfold get_markov_prob.
  assert (NP : ~ In (dn_name n) (map fst (dn_parents n))).
  { pose proof (wn_parents _ _ (wb_nodes _ WB _ Hn)) as N. now inversion N. }
  rewrite (sp_entry b WB n _ y Hn).
  - cbn [rbind]. f_equal. apply entry_ext. intros u [<-|Hu]; [now rewrite !look_dset|].
    rewrite !look_dset_neq by (intros ->; contradiction). now apply S.
  - intros u [<-|Hu].
    + exists y. split; [apply dget_dset_eq|]. now rewrite (values_of_node b WB n Hn).
    + rewrite dget_dset_neq by (intros ->; contradiction). now apply P.
  - apply look_dset.
Qed.

Lemma conditional_nonneg n x : In n (bnodes b) -> Forall (fun w => 0 <= w)%Qc (conditional n x).
Proof.
  intros Hn. apply Forall_forall. intros w Hw. apply in_map_iff in Hw as (y & <- & _). now apply (entry_nonneg b).
Qed.

(** Success. *)
Definition settled (pre : list string) (st : state) : Prop :=
  keeps ev st /\ forall v, In v pre -> exists y, dget v st = Some y /\ In y (values_of b v).

Lemma sample_steps g : rng_ok g -> legal_ev b ev -> forall post pre st k, order = pre ++ post -> settled pre st ->
  exists st' k', foldM (sample_one g b ev) post (st, k) = Ok (st', k') /\ settled order st'.
Proof.
  intros RG LE. induction post as [|v post IH]; intros pre st k E S.
  { exists st, k. rewrite app_nil_r in E. subst. now split. }
  assert (Hv : In v (bnames b)) by (apply in_order; rewrite E; apply in_or_app; right; now left).
  assert (E' : order = (pre ++ [v]) ++ post) by now rewrite <- app_assoc.
  cbn [foldM]. unfold sample_one at 1. cbn [fst snd].
  destruct (dmem v ev) eqn:M.
  - cbn [rbind]. apply (IH (pre ++ [v]) st k E'). split; [apply S|]. intros u Hu. apply in_app_or in Hu as [Hu|[<-|[]]]; [now apply S|].
    apply dmem_In, dget_key in M as (y & Y). exists y. split; [now apply S|]. now apply LE.
  - destruct (node_of b SN v Hv) as (n & Hn & N & GN & V & NE & ND). rewrite GN. cbn [rbind].
    destruct (children_ok b WB WG (sn_edges b SN) (sn_once b SN) v Hv) as (cs & GC & _). rewrite GC. cbn [rbind].
    assert (PP : incl (map fst (dn_parents n)) pre) by (eapply TO; eauto).
    assert (FW := forward_weights n st st Hn (fun p Hp => proj2 S p (PP p Hp)) (fun p _ => eq_refl) cs).
    destruct (sv_total g k n st cs true _ FW (conditional_nonneg n st Hn) (proj1 (RG k)) (proj2 (RG k)) NE) as (y & Hy & Ey).
    rewrite Ey. cbn [rbind]. apply (IH (pre ++ [v]) (dset v y st) (Datatypes.S k) E').
    split; [apply keeps_dset; [apply S|now apply dmem_nIn]|].
    intros u Hu. rewrite dget_dset. destruct (String.eqb_spec u v) as [->|X]; [exists y; split; [reflexivity|now rewrite V]|].
    apply in_app_or in Hu as [Hu|[Hu|[]]]; [now apply S|congruence].
Qed.

Lemma init_settled : NoDup (dkeys ev) -> settled [] (fold_left (fun d p => dset (fst p) (snd p) d) ev []).
Proof.
  intros N. split; [|intros v []]. intros v x H. rewrite dget_fold_dset by exact N. now rewrite H.
Qed.

Lemma sample_total g k : rng_ok g -> NoDup (dkeys ev) -> legal_ev b ev ->
  exists st k', get_sample g k b order ev = Ok (st, k') /\ complete b st /\ keeps ev st.
Proof.
  intros RG N LE. destruct (sample_steps g RG LE order [] _ k eq_refl (init_settled N)) as (st & k' & E & S).
  exists st, k'. split; [exact E|]. split; [|apply S]. intros v Hv. apply S. now apply in_order.
Qed.

(** The random numbers that lead to a given sample form a box. *)
Definition slot (x : state) (v : string) : Qc * Qc :=
  match get_node b v with
  | Ok n => let i := position (look x v) (dn_values n) in (upto (conditional n x) i, upto (conditional n x) (S i))
  | Err _ => (0, 0)%Qc
  end.
Definition unset (l : list string) : list string := filter (fun v => negb (dmem v ev)) l.

Lemma conditional_own n x i : In n (bnodes b) -> i < length (dn_values n) -> i = position (look x (dn_name n)) (dn_values n) ->
  In (look x (dn_name n)) (dn_values n) -> nth i (conditional n x) 0%Qc = entry n x.
Proof.
  intros Hn I E Hx. unfold conditional.
  rewrite (nth_indep _ 0%Qc (entry n (dset (dn_name n) "" x))) by (now rewrite map_length).
  rewrite (map_nth (fun y => entry n (dset (dn_name n) y x))). subst i. rewrite position_idx, nth_idx by exact Hx.
  apply entry_ext. intros u Hu. destruct (string_dec u (dn_name n)) as [->|X]; [apply look_dset|now apply look_dset_neq].
Qed.

Lemma slot_width n x : In n (bnodes b) -> complete b x -> width (slot x (dn_name n)) = entry n x.
Proof.
  intros Hn C. unfold slot. rewrite (get_node_ok b WB n Hn). unfold width. cbn [fst snd].
  destruct (C (dn_name n)) as (y & Y & IY); [exact (in_map dn_name _ _ Hn)|]. rewrite (values_of_node b WB n Hn) in IY.
  rewrite <- (look_dget _ _ _ Y) in IY.
  assert (I : position (look x (dn_name n)) (dn_values n) < length (dn_values n)) by (rewrite position_idx; now apply idx_lt).
  rewrite upto_lt_nth by (unfold conditional; now rewrite map_length).
  rewrite (conditional_own n x _ Hn I eq_refl IY). ring.
Qed.

Hypothesis ST : stochastic_bn b.

Lemma conditional_sum n x : In n (bnodes b) -> qsum (conditional n x) = 1%Qc.
Proof.
  intros Hn. rewrite <- (ST n x Hn). unfold conditional. f_equal. apply map_ext. intros y. apply entry_ext.
  intros u Hu. destruct (string_dec u (dn_name n)) as [->|X].
  - rewrite look_dset. unfold look. cbn [dget]. now rewrite String.eqb_refl.
  - rewrite look_dset_neq by exact X. unfold look. cbn [dget]. now rewrite eqb_neq_s.
Qed.

Lemma steps_keep g : forall post st k st' k' u, foldM (sample_one g b ev) post (st, k) = Ok (st', k') ->
  ~ In u post -> dget u st' = dget u st.
Proof.
  induction post as [|v post IH]; intros st k st' k' u E N; [now inversion E|]. cbn [foldM] in E.
  unfold sample_one in E at 1. cbn [fst snd] in E. destruct (dmem v ev).
  - cbn [rbind] in E. apply (IH _ _ _ _ u) in E; [exact E|]. intros H; apply N; now right.
  - destruct (get_node b v) as [n|]; cbn [rbind] in E; [|discriminate].
    destruct (get_children b v) as [cs|]; cbn [rbind] in E; [|discriminate].
    destruct (sample_value g k n st cs true) as [[y k1]|]; cbn [rbind] in E; [|discriminate].
    apply (IH _ _ _ _ u) in E; [|intros H; apply N; now right]. rewrite E. apply dget_dset_neq. intros ->. apply N. now left.
Qed.

Lemma box_steps g x : (forall k, (0 < unif g k)%Qc /\ (unif g k < 1)%Qc) -> complete b x -> keeps ev x ->
  forall post pre st k, order = pre ++ post -> NoDup order -> keeps ev st -> (forall v, In v pre -> dget v st = dget v x) ->
  ((exists st' k', foldM (sample_one g b ev) post (st, k) = Ok (st', k') /\ forall v, In v order -> dget v st' = dget v x) <->
   Forall2 between (map (unif g) (seq k (length (unset post)))) (map (slot x) (unset post))).
Proof.
  intros RG C KX. induction post as [|v post IH]; intros pre st k E ND KS S.
  { rewrite app_nil_r in E. subst. split; [constructor|]. intros _. exists st, k. split; [reflexivity|exact S]. }
  assert (Hv : In v (bnames b)) by (apply in_order; rewrite E; apply in_or_app; right; now left).
  assert (E' : order = (pre ++ [v]) ++ post) by now rewrite <- app_assoc.
  assert (VN : ~ In v post).
  { rewrite E in ND. apply NoDup_remove_2 in ND. intros H; apply ND. apply in_or_app. now right. }
  cbn [foldM]. unfold sample_one at 1. cbn [fst snd]. unfold unset. cbn [filter].
  destruct (dmem v ev) eqn:M; cbn [negb].
  - cbn [rbind]. apply (IH (pre ++ [v]) st k E' ND KS). intros u Hu. apply in_app_or in Hu as [Hu|[<-|[]]]; [now apply S|].
    apply dmem_In, dget_key in M as (y & Y). now rewrite (KS _ _ Y), (KX _ _ Y).
  - destruct (node_of b SN v Hv) as (n & Hn & N & GN & V & NE & NDv). rewrite GN. cbn [rbind].
    destruct (children_ok b WB WG (sn_edges b SN) (sn_once b SN) v Hv) as (cs & GC & _). rewrite GC. cbn [rbind].
    assert (PP : incl (map fst (dn_parents n)) pre) by (eapply TO; eauto).
    assert (FW : forall cs, mapM (fun y => get_markov_prob n y cs (dset (dn_name n) y st) true) (dn_values n) = Ok (conditional n x)).
    { apply forward_weights; [exact Hn| |].
      - intros p Hp. rewrite (S p (PP p Hp)). apply C. eapply (fam_names b WB n); [exact Hn|now right].
      - intros p Hp. unfold look. now rewrite (S p (PP p Hp)). }
    destruct (C v Hv) as (y & Y & IY). rewrite V in IY.
    set (i := position (look x v) (dn_values n)).
    assert (EI : nth i (dn_values n) "" = y).
    { unfold i. rewrite (look_dget _ _ _ Y), position_idx. now apply nth_idx. }
    assert (I : i < length (dn_values n)).
    { unfold i. rewrite (look_dget _ _ _ Y), position_idx. now apply idx_lt. }
    destruct (RG k) as [U0 U1].
    pose proof (sv_iff g k n st cs true _ (FW cs) (conditional_nonneg n x Hn) U1 i NDv U0) as SV.
    rewrite (conditional_sum n x Hn) in SV. specialize (SV eq_refl I). rewrite EI in SV.
    replace (unif g k * 1)%Qc with (unif g k) in SV by ring.
    destruct (sv_hit g k n st cs true _ (FW cs) U1 U0) as (j & J & EJ & _).
    { rewrite (conditional_sum n x Hn). reflexivity. }
    assert (SL : slot x v = (upto (conditional n x) i, upto (conditional n x) (Datatypes.S i))) by (unfold slot; now rewrite GN).
    cbn [map length seq]. fold (unset post). rewrite SL.
    specialize (IH (pre ++ [v]) (dset v y st) (Datatypes.S k) E' ND).
    assert (KS' : keeps ev (dset v y st)) by (apply keeps_dset; [exact KS|now apply dmem_nIn]).
    assert (S' : forall u, In u (pre ++ [v]) -> dget u (dset v y st) = dget u x).
    { intros u Hu. rewrite dget_dset. destruct (String.eqb_spec u v) as [->|X]; [now rewrite Y|].
      apply in_app_or in Hu as [Hu|[Hu|[]]]; [now apply S|congruence]. }
    specialize (IH KS' S'). split.
    + intros (st' & k' & A & B).
      assert (Q : nth j (dn_values n) "" = y).
      { assert (H : dget v st' = dget v x) by (apply B, in_order, Hv).
        rewrite EJ in A. cbn [rbind] in A. rewrite (steps_keep g _ _ _ _ _ v A VN), dget_dset_eq, Y in H. congruence. }
      rewrite Q in EJ. constructor; [apply SV; exact EJ|]. apply IH. exists st', k'. split; [|exact B].
      rewrite EJ in A. exact A.
    + intros F. inversion F as [|? ? ? ? A B]; subst. apply SV in A.
      apply IH in B as (st' & k' & B1 & B2). exists st', k'. split; [|exact B2]. rewrite A. exact B1.
Qed.

Lemma qprod_slots x : complete b x ->
  qprod (map width (map (slot x) (unset order))) =
  qprod (map (fun n => entry n x) (filter (fun n => negb (dmem (dn_name n) ev)) (bnodes b))).
Proof.
  intros C. assert (P : Permutation (unset order) (map dn_name (filter (fun n => negb (dmem (dn_name n) ev)) (bnodes b)))).
  { unfold unset. transitivity (filter (fun v => negb (dmem v ev)) (bnames b)).
    - assert (Q := proj1 TO). clear - Q. induction Q; cbn [filter]; try destruct (negb _); try destruct (negb _); eauto using Permutation.
    - unfold bnames. clear. induction (bnodes b) as [|n l IH]; [reflexivity|]. cbn [map filter]. destruct (negb _); cbn [map]; auto. }
  rewrite map_map. rewrite (qprod_perm _ _ (Permutation_map (fun v => width (slot x v)) P)), map_map. f_equal. apply map_ext_in.
  intros n Hn. apply filter_In in Hn as [Hn _]. now apply slot_width.
Qed.

Theorem forward_box x : NoDup (dkeys ev) -> complete b x -> keeps ev x ->
  exists boxes, length boxes = length (unset order) /\
    qprod (map width boxes) = qprod (map (fun n => entry n x) (filter (fun n => negb (dmem (dn_name n) ev)) (bnodes b))) /\
    forall g k, (forall k, (0 < unif g k)%Qc /\ (unif g k < 1)%Qc) ->
      ((exists st k', get_sample g k b order ev = Ok (st, k') /\ forall v, In v (bnames b) -> dget v st = dget v x) <->
       Forall2 between (map (unif g) (seq k (length boxes))) boxes).
Proof.
  intros N C K. exists (map (slot x) (unset order)). split; [apply map_length|]. split; [now apply qprod_slots|].
  intros g k RG. rewrite map_length.
  assert (ND : NoDup order) by (eapply Permutation_NoDup; [apply TO|exact (wb_names _ WB)]).
  destruct (box_steps g x RG C K order [] (fold_left (fun d p => dset (fst p) (snd p) d) ev []) k eq_refl ND (proj1 (init_settled N)) (fun v H => False_ind _ H)) as [A B].
  split.
  - intros (st & k' & E & H). apply A. exists st, k'. split; [exact E|]. intros v Hv. apply H. now apply in_order.
  - intros F. apply B in F as (st & k' & E & H). exists st, k'. split; [exact E|]. intros v Hv. apply H. now apply in_order.
Qed.
End Net.
