(** Small changes of the tables. *)
From Coq Require Import Field.
From Verif Require Import Base BaseFacts NDArray Factor FactorFacts Exact Spec SpecFacts Order OrderSpec FactorSpec FactorProofs VEProof2
  JoinTree TreeSpec LawCount RoundedSoftTop DynPure CoherentSpec CoherentProof ChangeSpec.

Lemma Qcle_mult_l a x y : (0 <= a)%Qc -> (x <= y)%Qc -> (a * x <= a * y)%Qc.
Proof. intros A H. rewrite !(Qcmult_comm a). now apply Qcmult_le_compat_r. Qed.

Lemma powc_nonneg c k : (0 <= c)%Qc -> (0 <= powc c k)%Qc.
Proof. intros H. induction k as [|k IH]; cbn [powc]; [discriminate|]. rewrite <- (Qcmult_0_l (powc c k)). now apply Qcmult_le_compat_r. Qed.

Lemma powc_positive c k : (0 < c)%Qc -> (0 < powc c k)%Qc.
Proof. intros H. induction k as [|k IH]; cbn [powc]; [reflexivity|]. rewrite <- (Qcmult_0_l (powc c k)). now apply Qcmult_lt_compat_r. Qed.

Lemma slack_powc lo hi k : lo <> 0%Qc -> (slack lo hi k * powc lo k = powc hi k)%Qc.
Proof.
  intros L. induction k as [|k IH]; cbn [slack powc]; [ring|]. rewrite <- IH. unfold Qcdiv.
  transitivity (hi * (/ lo * lo) * (slack lo hi k * powc lo k))%Qc; [ring|]. rewrite Qcmult_inv_l by exact L. ring.
Qed.

Lemma changed_vars lo hi vars k l l' : changed lo hi vars k l l' -> map (fun n => (dn_name n, dn_values n)) l' = map (fun n => (dn_name n, dn_values n)) l.
Proof. induction 1 as [|k n l l' H IH|k n n' l l' E1 E2 B H IH]; cbn [map]; [reflexivity| |]; rewrite IH; [reflexivity|]. now rewrite E1, E2. Qed.

Lemma changed_values lo hi vars k l l' v : changed lo hi vars k l l' ->
  match find (fun n => String.eqb v (dn_name n)) l' with Some n => dn_values n | None => [] end =
  match find (fun n => String.eqb v (dn_name n)) l with Some n => dn_values n | None => [] end.
Proof.
  induction 1 as [|k n l l' H IH|k n n' l l' E1 E2 B H IH]; cbn [find]; [reflexivity| |]; rewrite ?E1; destruct (String.eqb v (dn_name n)); auto.
Qed.

Lemma changed_evidence lo hi vars k l l' ev s : changed lo hi vars k l l' -> map (fun n => evidence_weight ev n s) l' = map (fun n => evidence_weight ev n s) l.
Proof.
  induction 1 as [|k n l l' H IH|k n n' l l' E1 E2 B H IH]; cbn [map]; [reflexivity| |]; rewrite IH; [reflexivity|]. unfold evidence_weight. now rewrite E1, E2.
Qed.

Lemma changed_product lo hi vars k l l' s : (0 < lo)%Qc -> (0 <= hi)%Qc -> changed lo hi vars k l l' -> In s (states vars) ->
  (forall n, In n l -> (0 <= entry n s)%Qc) ->
  (powc lo k * qprod (map (fun n => entry n s) l) <= qprod (map (fun n => entry n s) l'))%Qc /\
  (qprod (map (fun n => entry n s) l') <= powc hi k * qprod (map (fun n => entry n s) l))%Qc.
Proof.
  intros L HI C S. assert (LO : (0 <= lo)%Qc) by now apply Qclt_le_weak. induction C as [|k n l l' H IH|k n n' l l' E1 E2 B H IH]; intros P; cbn [map powc].
  - cbn. split; discriminate.
  - rewrite !qprod_cons. destruct IH as [A D]; [intros; apply P; now right|]. pose proof (P n (or_introl eq_refl)) as N. split.
    + replace (powc lo k * (entry n s * qprod (map (fun n => entry n s) l)))%Qc with (entry n s * (powc lo k * qprod (map (fun n => entry n s) l)))%Qc by ring. now apply Qcle_mult_l.
    + replace (powc hi k * (entry n s * qprod (map (fun n => entry n s) l)))%Qc with (entry n s * (powc hi k * qprod (map (fun n => entry n s) l)))%Qc by ring. now apply Qcle_mult_l.
  - rewrite !qprod_cons. destruct IH as [A D]; [intros; apply P; now right|]. pose proof (P n (or_introl eq_refl)) as N. destruct (B s S) as [B1 B2].
    assert (R : (0 <= qprod (map (fun n => entry n s) l))%Qc).
    { apply qprod_nonneg, Forall_forall. intros z Z. apply in_map_iff in Z as (m & <- & M). apply P. now right. }
    assert (R' : (0 <= qprod (map (fun n => entry n s) l'))%Qc).
    { eapply Qcle_trans; [|exact A]. rewrite <- (Qcmult_0_l (qprod (map (fun n => entry n s) l))). apply Qcmult_le_compat_r; [now apply powc_nonneg|exact R]. }
    assert (N' : (0 <= lo * entry n s)%Qc) by (rewrite <- (Qcmult_0_l (entry n s)); now apply Qcmult_le_compat_r). split.
    + replace (lo * powc lo k * (entry n s * qprod (map (fun n => entry n s) l)))%Qc with (lo * entry n s * (powc lo k * qprod (map (fun n => entry n s) l)))%Qc by ring.
      eapply Qcle_trans; [apply Qcle_mult_l; [exact N'|exact A]|]. now apply Qcmult_le_compat_r.
    + replace (hi * powc hi k * (entry n s * qprod (map (fun n => entry n s) l)))%Qc with (hi * entry n s * (powc hi k * qprod (map (fun n => entry n s) l)))%Qc by ring.
      eapply Qcle_trans; [apply Qcmult_le_compat_r; [exact B2|exact R']|]. apply Qcle_mult_l; [|exact D]. eapply Qcle_trans; [exact N'|]. now apply (Qcle_trans _ (entry n' s)).
Qed.

Section Two.
Variables (lo hi : Qc) (k : nat) (b b' : bn).
Hypothesis WB : wf_bn b.
Hypothesis NN : nonneg_bn b.
Hypothesis P : perturbed lo hi k b b'.

Lemma p_vars : bvars b' = bvars b.
Proof. exact (changed_vars _ _ _ _ _ _ (proj2 (proj2 P))). Qed.
Lemma p_values v : values_of b' v = values_of b v.
Proof. exact (changed_values _ _ _ _ _ _ v (proj2 (proj2 P))). Qed.
Lemma p_names : bnames b' = bnames b.
Proof. pose proof (f_equal (map fst) p_vars) as E. unfold bvars in E. rewrite !map_map in E. exact E. Qed.
Lemma p_asked ev Q : asked b ev Q -> asked b' ev Q.
Proof.
  intros ((ND & EO) & I & NQ & IQ). split; [split; [exact ND|]|rewrite p_names; auto]. intros v e H V. rewrite p_names in V. specialize (EO v e H V).
  destruct e; now rewrite p_values.
Qed.
Lemma p_inst Q q : is_inst b Q q -> is_inst b' Q q.
Proof. intros (A & B & C). split; [exact A|]. split; [exact B|]. intros v x H. rewrite p_values. now apply C. Qed.

Lemma p_mass ev q : ev_ok b ev -> (powc lo k * mass b ev q <= mass b' ev q)%Qc /\ (mass b' ev q <= powc hi k * mass b ev q)%Qc.
Proof.
  intros EO. destruct P as (L & H & C). assert (HI : (0 <= hi)%Qc) by (eapply Qcle_trans; [apply Qclt_le_weak, L|exact H]).
  unfold mass. rewrite p_vars.
  assert (W : forall s, In s (filter (agrees q) (states (bvars b))) -> (powc lo k * weight b ev s <= weight b' ev s)%Qc /\ (weight b' ev s <= powc hi k * weight b ev s)%Qc).
  { intros s S. apply filter_In in S as [S _]. unfold weight, joint. rewrite (changed_evidence _ _ _ _ _ _ ev s C).
    destruct (changed_product lo hi (bvars b) k (bnodes b) (bnodes b') s L HI C S) as [A B].
    { intros n Hn. apply (entry_nonneg b); [exact NN|exact Hn]. }
    assert (E : (0 <= qprod (map (fun n => evidence_weight ev n s) (bnodes b)))%Qc).
    { apply qprod_nonneg, Forall_forall. intros z Z. apply in_map_iff in Z as (n & <- & Hn). now apply (evw_nonneg b). }
    rewrite !Qcmult_assoc. split; now apply Qcmult_le_compat_r. }
  rewrite <- !qsum_mult_l. induction (filter (agrees q) (states (bvars b))) as [|s l IH]; cbn [map qsum]; [split; apply Qcle_refl|].
  destruct IH as [A B]; [intros; apply W; now right|]. destruct (W s (or_introl eq_refl)) as [A1 B1]. split; now apply Qcplus_le_compat.
Qed.

Lemma p_posterior ev q : ev_ok b ev ->
  (posterior b' ev q <= slack lo hi k * posterior b ev q)%Qc /\ (posterior b ev q <= slack lo hi k * posterior b' ev q)%Qc.
Proof.
  intros EO. destruct (p_mass ev q EO) as [A B]. destruct (p_mass ev [] EO) as [A0 B0]. pose proof (mass_nonneg b WB ev q NN EO) as M. pose proof (mass_nonneg b WB ev [] NN EO) as M0.
  destruct P as (L & H & _). pose proof (powc_positive lo k L) as PL. assert (LN : lo <> 0%Qc) by (intros ->; discriminate L).
  assert (HP : (0 < hi)%Qc) by exact (Qclt_le_trans _ _ _ L H). pose proof (powc_positive hi k HP) as PH. pose proof (slack_powc lo hi k LN) as SP.
  assert (PLn : powc lo k <> 0%Qc) by (intros E; rewrite E in PL; discriminate PL).
  unfold posterior. destruct (qeqb (mass b ev []) 0%Qc) eqn:Z.
  - apply qeqb_true in Z. rewrite Z, Qcmult_0_r in A0, B0. assert (Z' : mass b' ev [] = 0%Qc) by now apply Qcle_antisym. apply qeqb_true in Z' as Zb. rewrite Zb.
    rewrite !Qcmult_0_r. split; apply Qcle_refl.
  - apply qeqb_false in Z. assert (Mp : (0 < mass b ev [])%Qc) by now apply Qc_nonneg_neq0_pos.
    assert (Mp' : (0 < mass b' ev [])%Qc). { eapply Qclt_le_trans; [|exact A0]. rewrite <- (Qcmult_0_l (mass b ev [])). now apply Qcmult_lt_compat_r. }
    assert (Z' : mass b' ev [] <> 0%Qc) by (intros E; rewrite E in Mp'; discriminate Mp'). apply qeqb_false in Z' as Zb. rewrite Zb.
    assert (SN : (0 <= slack lo hi k)%Qc).
    { apply (Qcmult_lt_0_le_reg_r _ _ (powc lo k)); [exact PL|]. rewrite Qcmult_0_l, SP. now apply Qclt_le_weak. }
    split.
    + apply (Qcmult_lt_0_le_reg_r _ _ (mass b' ev [] * mass b ev [])); [rewrite <- (Qcmult_0_l (mass b ev [])); now apply Qcmult_lt_compat_r|].
      replace (mass b' ev q / mass b' ev [] * (mass b' ev [] * mass b ev []))%Qc with (mass b' ev q * mass b ev [])%Qc by (field; exact Z').
      replace (slack lo hi k * (mass b ev q / mass b ev []) * (mass b' ev [] * mass b ev []))%Qc with (slack lo hi k * mass b ev q * mass b' ev [])%Qc by (field; exact Z).
      apply (Qcle_trans _ (powc hi k * mass b ev q * mass b ev [])); [now apply Qcmult_le_compat_r|].
      rewrite <- SP. replace (slack lo hi k * powc lo k * mass b ev q * mass b ev [])%Qc with (slack lo hi k * mass b ev q * (powc lo k * mass b ev []))%Qc by ring.
      apply Qcle_mult_l; [|exact A0]. rewrite <- (Qcmult_0_l (mass b ev q)). now apply Qcmult_le_compat_r.
    + apply (Qcmult_lt_0_le_reg_r _ _ (mass b' ev [] * mass b ev [])); [rewrite <- (Qcmult_0_l (mass b ev [])); now apply Qcmult_lt_compat_r|].
      replace (mass b ev q / mass b ev [] * (mass b' ev [] * mass b ev []))%Qc with (mass b ev q * mass b' ev [])%Qc by (field; exact Z).
      replace (slack lo hi k * (mass b' ev q / mass b' ev []) * (mass b' ev [] * mass b ev []))%Qc with (slack lo hi k * mass b' ev q * mass b ev [])%Qc by (field; exact Z').
      apply (Qcle_trans _ (mass b ev q * (powc hi k * mass b ev []))); [now apply Qcle_mult_l|].
      rewrite <- SP. replace (mass b ev q * (slack lo hi k * powc lo k * mass b ev []))%Qc with (slack lo hi k * mass b ev [] * (powc lo k * mass b ev q))%Qc by ring.
      replace (slack lo hi k * mass b' ev q * mass b ev [])%Qc with (slack lo hi k * mass b ev [] * mass b' ev q)%Qc by ring.
      apply Qcle_mult_l; [|exact A]. rewrite <- (Qcmult_0_l (mass b ev [])). now apply Qcmult_le_compat_r.
Qed.
End Two.

Lemma answers_near lo hi k b b' ev Q f f' q : wf_bn b -> nonneg_bn b -> wf_bn b' -> nonneg_bn b' -> perturbed lo hi k b b' ->
  asked b ev Q -> answer b ev Q f -> answer b' ev Q f' -> is_inst b Q q ->
  (potential_at f' q <= slack lo hi k * potential_at f q)%Qc /\ (potential_at f q <= slack lo hi k * potential_at f' q)%Qc.
Proof.
  intros WB NN WB' NN' P AS A A' I. rewrite (answer_at b WB NN ev Q f q AS A I).
  rewrite (answer_at b' WB' NN' ev Q f' q (p_asked lo hi k b b' P ev Q AS) A' (p_inst lo hi k b b' P Q q I)).
  apply (p_posterior lo hi k b b' WB NN P ev q). apply AS.
Qed.

Lemma slack_one c k : c <> 0%Qc -> slack c c k = 1%Qc.
Proof. intros N. induction k as [|k IH]; cbn [slack]; [reflexivity|]. rewrite IH. field. exact N. Qed.

Lemma changed_checked lo hi vars n n' : forallb (fun s => qleb (lo * entry n s) (entry n' s) && qleb (entry n' s) (hi * entry n s)) (states vars) = true ->
  forall s, In s (states vars) -> (lo * entry n s <= entry n' s)%Qc /\ (entry n' s <= hi * entry n s)%Qc.
Proof. intros H s S. rewrite forallb_forall in H. specialize (H s S). apply andb_prop in H as [A B]. split; now apply qleb_true. Qed.

Section Corollaries.
Variables (lo hi : Qc) (k : nat) (b b' : bn) (ev : evidence) (Q : list string) (f f' : factor) (q : dict string).
Hypothesis (WB : wf_bn b) (NN : nonneg_bn b) (WB' : wf_bn b') (NN' : nonneg_bn b') (P : perturbed lo hi k b b').
Hypothesis (AS : asked b ev Q) (A : answer b ev Q f) (A' : answer b' ev Q f') (I : is_inst b Q q).
Lemma posterior_nonneg_c b0 : wf_bn b0 -> nonneg_bn b0 -> ev_ok b0 ev -> (0 <= posterior b0 ev q)%Qc.
Proof.
  intros W N E. pose proof (mass_nonneg b0 W ev q N E) as M. pose proof (mass_nonneg b0 W ev [] N E) as M0. unfold posterior. destruct (qeqb _ _) eqn:Z; [apply Qcle_refl|].
  apply qeqb_false in Z. assert (Mp : (0 < mass b0 ev [])%Qc) by now apply Qc_nonneg_neq0_pos. apply (Qcmult_lt_0_le_reg_r _ _ (mass b0 ev [])); [exact Mp|].
  rewrite Qcmult_0_l. replace (mass b0 ev q / mass b0 ev [] * mass b0 ev [])%Qc with (mass b0 ev q) by (field; exact Z). exact M.
Qed.
Lemma answers_zero : (potential_at f q = 0%Qc <-> potential_at f' q = 0%Qc).
Proof.
  destruct (answers_near lo hi k b b' ev Q f f' q WB NN WB' NN' P AS A A' I) as [U V].
  assert (N : (0 <= potential_at f q)%Qc). { rewrite (answer_at b WB NN ev Q f q AS A I). apply posterior_nonneg_c; [exact WB|exact NN|apply AS]. }
  assert (N' : (0 <= potential_at f' q)%Qc).
  { pose proof (p_asked lo hi k b b' P ev Q AS) as AS'. rewrite (answer_at b' WB' NN' ev Q f' q AS' A' (p_inst lo hi k b b' P Q q I)).
    apply posterior_nonneg_c; [exact WB'|exact NN'|apply AS']. }
  split; intros E; rewrite E, Qcmult_0_r in *; apply Qcle_antisym; assumption.
Qed.
End Corollaries.

Lemma answers_scale c k b b' ev Q f f' q : wf_bn b -> nonneg_bn b -> wf_bn b' -> nonneg_bn b' -> perturbed c c k b b' ->
  asked b ev Q -> answer b ev Q f -> answer b' ev Q f' -> is_inst b Q q -> potential_at f' q = potential_at f q.
Proof.
  intros WB NN WB' NN' P AS A A' I. destruct (answers_near c c k b b' ev Q f f' q WB NN WB' NN' P AS A A' I) as [U V].
  rewrite slack_one, Qcmult_1_l in U, V; [now apply Qcle_antisym| |]; destruct P as (L & _); intros ->; discriminate L.
Qed.

(** ** Changed evidence *)
Lemma ratio_near r p0 p1 a c a' c' : (0 < p0)%Qc -> (r * p0 = p1)%Qc -> (0 <= p1)%Qc -> (0 <= a)%Qc -> (0 < c)%Qc -> (0 < c')%Qc ->
  (p0 * a <= a')%Qc -> (a' <= p1 * a)%Qc -> (p0 * c <= c')%Qc -> (c' <= p1 * c)%Qc -> (a' / c' <= r * (a / c))%Qc /\ (a / c <= r * (a' / c'))%Qc.
Proof.
  intros PL SP PH A0 C0 C0' A B A1 B1.
  assert (Z : c <> 0%Qc) by (intros ->; discriminate C0). assert (Z' : c' <> 0%Qc) by (intros ->; discriminate C0').
  assert (R : (0 <= r)%Qc) by (apply (Qcmult_lt_0_le_reg_r _ _ p0); [exact PL|]; rewrite Qcmult_0_l, SP; exact PH).
  assert (CC : (0 < c' * c)%Qc) by (rewrite <- (Qcmult_0_l c); now apply Qcmult_lt_compat_r). split.
  - apply (Qcmult_lt_0_le_reg_r _ _ (c' * c)); [exact CC|]. replace (a' / c' * (c' * c))%Qc with (a' * c)%Qc by (field; exact Z').
    replace (r * (a / c) * (c' * c))%Qc with (r * a * c')%Qc by (field; exact Z).
    apply (Qcle_trans _ (p1 * a * c)); [apply Qcmult_le_compat_r; [exact B|now apply Qclt_le_weak]|].
    rewrite <- SP. replace (r * p0 * a * c)%Qc with (r * a * (p0 * c))%Qc by ring. apply Qcle_mult_l; [|exact A1]. rewrite <- (Qcmult_0_l a). now apply Qcmult_le_compat_r.
  - apply (Qcmult_lt_0_le_reg_r _ _ (c' * c)); [exact CC|]. replace (a / c * (c' * c))%Qc with (a * c')%Qc by (field; exact Z).
    replace (r * (a' / c') * (c' * c))%Qc with (r * c * a')%Qc by (field; exact Z').
    apply (Qcle_trans _ (a * (p1 * c))); [now apply Qcle_mult_l|].
    rewrite <- SP. replace (a * (r * p0 * c))%Qc with (r * c * (p0 * a))%Qc by ring. apply Qcle_mult_l; [|exact A].
    rewrite <- (Qcmult_0_l c). apply Qcmult_le_compat_r; [exact R|now apply Qclt_le_weak].
Qed.

Lemma Forall2_nth_between lo hi (q q' : list Qc) i : Forall2 (fun x y => (lo * x <= y)%Qc /\ (y <= hi * x)%Qc) q q' ->
  (lo * nth i q 0 <= nth i q' 0)%Qc /\ (nth i q' 0 <= hi * nth i q 0)%Qc.
Proof.
  intros F. revert i. induction F as [|x y q q' H F IH]; intros [|i]; cbn [nth]; auto; rewrite ?Qcmult_0_r; split; apply Qcle_refl.
Qed.

Section Evidence.
Variables (lo hi : Qc) (k : nat) (b : bn) (ev ev' : evidence).
Hypothesis WB : wf_bn b.
Hypothesis NN : nonneg_bn b.
Hypothesis L : (0 < lo)%Qc.
Hypothesis H : (lo <= hi)%Qc.
Hypothesis R : reweighed lo hi ev ev' k (bnames b).
Hypothesis EO : ev_ok b ev.

Lemma reweighed_product l j s : reweighed lo hi ev ev' j (map dn_name l) -> incl l (bnodes b) ->
  (powc lo j * qprod (map (fun n => evidence_weight ev n s) l) <= qprod (map (fun n => evidence_weight ev' n s) l))%Qc /\
  (qprod (map (fun n => evidence_weight ev' n s) l) <= powc hi j * qprod (map (fun n => evidence_weight ev n s) l))%Qc.
Proof.
  assert (LO : (0 <= lo)%Qc) by now apply Qclt_le_weak. assert (HI : (0 <= hi)%Qc) by now apply (Qcle_trans _ lo).
  revert j. induction l as [|n l IH]; intros j RW IN; cbn [map] in RW |- *.
  - inversion RW; subst. cbn. split; discriminate.
  - assert (IN' : incl l (bnodes b)) by (intros x X; apply IN; now right). rewrite !qprod_cons.
    pose proof (evw_nonneg b ev n s EO (IN n (or_introl eq_refl))) as N.
    assert (PR : (0 <= qprod (map (fun n => evidence_weight ev n s) l))%Qc).
    { apply qprod_nonneg, Forall_forall. intros z Z. apply in_map_iff in Z as (m & <- & M). apply (evw_nonneg b ev m s EO), IN', M. }
    inversion RW as [|j' v vs E RW'|j' v vs q q' E E' F RW']; subst.
    + destruct (IH _ RW' IN') as [A D]. replace (evidence_weight ev' n s) with (evidence_weight ev n s) by (unfold evidence_weight; now rewrite E). split.
      * replace (powc lo j * (evidence_weight ev n s * qprod (map (fun n => evidence_weight ev n s) l)))%Qc with (evidence_weight ev n s * (powc lo j * qprod (map (fun n => evidence_weight ev n s) l)))%Qc by ring. now apply Qcle_mult_l.
      * replace (powc hi j * (evidence_weight ev n s * qprod (map (fun n => evidence_weight ev n s) l)))%Qc with (evidence_weight ev n s * (powc hi j * qprod (map (fun n => evidence_weight ev n s) l)))%Qc by ring. now apply Qcle_mult_l.
    + destruct (IH _ RW' IN') as [A D]. cbn [powc].
      assert (B : (lo * evidence_weight ev n s <= evidence_weight ev' n s)%Qc /\ (evidence_weight ev' n s <= hi * evidence_weight ev n s)%Qc).
      { unfold evidence_weight. rewrite E, E'. now apply Forall2_nth_between. }
      destruct B as [B1 B2].
      assert (PR' : (0 <= qprod (map (fun n => evidence_weight ev' n s) l))%Qc).
      { eapply Qcle_trans; [|exact A]. rewrite <- (Qcmult_0_l (qprod (map (fun n => evidence_weight ev n s) l))). apply Qcmult_le_compat_r; [now apply powc_nonneg|exact PR]. }
      assert (N' : (0 <= lo * evidence_weight ev n s)%Qc) by (rewrite <- (Qcmult_0_l (evidence_weight ev n s)); now apply Qcmult_le_compat_r). split.
      * replace (lo * powc lo j' * (evidence_weight ev n s * qprod (map (fun n => evidence_weight ev n s) l)))%Qc with (lo * evidence_weight ev n s * (powc lo j' * qprod (map (fun n => evidence_weight ev n s) l)))%Qc by ring.
        eapply Qcle_trans; [apply Qcle_mult_l; [exact N'|exact A]|]. now apply Qcmult_le_compat_r.
      * replace (hi * powc hi j' * (evidence_weight ev n s * qprod (map (fun n => evidence_weight ev n s) l)))%Qc with (hi * evidence_weight ev n s * (powc hi j' * qprod (map (fun n => evidence_weight ev n s) l)))%Qc by ring.
        eapply Qcle_trans; [apply Qcmult_le_compat_r; [exact B2|exact PR']|]. apply Qcle_mult_l; [|exact D]. eapply Qcle_trans; [exact N'|]. now apply (Qcle_trans _ (evidence_weight ev' n s)).
Qed.

Lemma e_mass q : (powc lo k * mass b ev q <= mass b ev' q)%Qc /\ (mass b ev' q <= powc hi k * mass b ev q)%Qc.
Proof.
  unfold mass.
  assert (W : forall s, (powc lo k * weight b ev s <= weight b ev' s)%Qc /\ (weight b ev' s <= powc hi k * weight b ev s)%Qc).
  { intros s. unfold weight, joint. destruct (reweighed_product (bnodes b) k s R (fun x X => X)) as [A B].
    assert (E : (0 <= qprod (map (fun n => entry n s) (bnodes b)))%Qc).
    { apply qprod_nonneg, Forall_forall. intros z Z. apply in_map_iff in Z as (n & <- & Hn). unfold entry, aget. apply nth_Forall_nonneg, NN, Hn. }
    split.
    - replace (powc lo k * (qprod (map (fun n => entry n s) (bnodes b)) * qprod (map (fun n => evidence_weight ev n s) (bnodes b))))%Qc
        with (qprod (map (fun n => entry n s) (bnodes b)) * (powc lo k * qprod (map (fun n => evidence_weight ev n s) (bnodes b))))%Qc by ring. now apply Qcle_mult_l.
    - replace (powc hi k * (qprod (map (fun n => entry n s) (bnodes b)) * qprod (map (fun n => evidence_weight ev n s) (bnodes b))))%Qc
        with (qprod (map (fun n => entry n s) (bnodes b)) * (powc hi k * qprod (map (fun n => evidence_weight ev n s) (bnodes b))))%Qc by ring. now apply Qcle_mult_l. }
  rewrite <- !qsum_mult_l. induction (filter (agrees q) (states (bvars b))) as [|s l IH]; cbn [map qsum]; [split; apply Qcle_refl|].
  destruct IH as [A B]. destruct (W s) as [A1 B1]. split; now apply Qcplus_le_compat.
Qed.

Lemma e_posterior q : (posterior b ev' q <= slack lo hi k * posterior b ev q)%Qc /\ (posterior b ev q <= slack lo hi k * posterior b ev' q)%Qc.
Proof.
  destruct (e_mass q) as [A B]. destruct (e_mass []) as [A0 B0]. pose proof (mass_nonneg b WB ev q NN EO) as M. pose proof (mass_nonneg b WB ev [] NN EO) as M0.
  assert (LN : lo <> 0%Qc) by (intros E; rewrite E in L; discriminate L). pose proof (powc_positive lo k L) as PL.
  pose proof (powc_positive hi k (Qclt_le_trans _ _ _ L H)) as PH. unfold posterior. destruct (qeqb (mass b ev []) 0%Qc) eqn:Z.
  - apply qeqb_true in Z. rewrite Z, Qcmult_0_r in A0, B0. assert (Z' : mass b ev' [] = 0%Qc) by now apply Qcle_antisym. apply qeqb_true in Z' as Zb. rewrite Zb.
    rewrite !Qcmult_0_r. split; apply Qcle_refl.
  - apply qeqb_false in Z. assert (Mp : (0 < mass b ev [])%Qc) by now apply Qc_nonneg_neq0_pos.
    assert (Mp' : (0 < mass b ev' [])%Qc). { eapply Qclt_le_trans; [|exact A0]. rewrite <- (Qcmult_0_l (mass b ev [])). now apply Qcmult_lt_compat_r. }
    assert (Z' : mass b ev' [] <> 0%Qc) by (intros E; rewrite E in Mp'; discriminate Mp'). apply qeqb_false in Z'. rewrite Z'.
    apply (ratio_near _ (powc lo k) (powc hi k)); auto; [now apply slack_powc|now apply Qclt_le_weak].
Qed.
End Evidence.

Lemma answers_near_evidence lo hi k b ev ev' Q f f' q : wf_bn b -> nonneg_bn b -> (0 < lo)%Qc -> (lo <= hi)%Qc -> reweighed lo hi ev ev' k (bnames b) ->
  asked b ev Q -> asked b ev' Q -> answer b ev Q f -> answer b ev' Q f' -> is_inst b Q q ->
  (potential_at f' q <= slack lo hi k * potential_at f q)%Qc /\ (potential_at f q <= slack lo hi k * potential_at f' q)%Qc.
Proof.
  intros WB NN L H R AS AS' A A' I. rewrite (answer_at b WB NN ev Q f q AS A I), (answer_at b WB NN ev' Q f' q AS' A' I). apply (e_posterior lo hi k b ev ev' WB NN L H R), AS.
Qed.

Lemma answers_scale_evidence c k b ev ev' Q f f' q : wf_bn b -> nonneg_bn b -> (0 < c)%Qc -> reweighed c c ev ev' k (bnames b) ->
  asked b ev Q -> asked b ev' Q -> answer b ev Q f -> answer b ev' Q f' -> is_inst b Q q -> potential_at f' q = potential_at f q.
Proof.
  intros WB NN L R AS AS' A A' I. destruct (answers_near_evidence c c k b ev ev' Q f f' q WB NN L (Qcle_refl _) R AS AS' A A' I) as [U V].
  rewrite slack_one, Qcmult_1_l in U, V; [now apply Qcle_antisym| |]; intros ->; discriminate L.
Qed.

(** ** Odds *)
Lemma odds_near s p0 p1 a c a' c' : (s * p0 = p1)%Qc -> (0 <= s)%Qc -> (0 <= a)%Qc -> (0 <= c)%Qc ->
  (a' <= p1 * a)%Qc -> (p0 * c <= c')%Qc -> (a' * c <= s * a * c')%Qc.
Proof.
  intros SP S0 A0 C0 B A. apply (Qcle_trans _ (p1 * a * c)); [now apply Qcmult_le_compat_r|]. rewrite <- SP.
  replace (s * p0 * a * c)%Qc with (s * a * (p0 * c))%Qc by ring. apply Qcle_mult_l; [|exact A]. rewrite <- (Qcmult_0_l a). now apply Qcmult_le_compat_r.
Qed.

Lemma slack_nonneg lo hi k : (0 < lo)%Qc -> (lo <= hi)%Qc -> (0 <= slack lo hi k)%Qc.
Proof.
  intros L H. assert (LN : lo <> 0%Qc) by (intros ->; discriminate L). apply (Qcmult_lt_0_le_reg_r _ _ (powc lo k)); [now apply powc_positive|].
  rewrite Qcmult_0_l, slack_powc by exact LN. apply Qclt_le_weak, powc_positive. exact (Qclt_le_trans _ _ _ L H).
Qed.

Lemma odds_posterior s (m m' : dict string -> Qc) q r z z' : (m' q * m r <= s * m q * m' r)%Qc -> (0 <= z)%Qc -> (0 <= z')%Qc ->
  (m' q * z' * (m r * z) <= s * (m q * z) * (m' r * z'))%Qc.
Proof.
  intros H Z Z'. replace (m' q * z' * (m r * z))%Qc with (z * z' * (m' q * m r))%Qc by ring.
  replace (s * (m q * z) * (m' r * z'))%Qc with (z * z' * (s * m q * m' r))%Qc by ring. apply Qcle_mult_l; [|exact H].
  rewrite <- (Qcmult_0_l z'). now apply Qcmult_le_compat_r.
Qed.

Lemma Qcinv_nonneg_c x : (0 <= x)%Qc -> x <> 0%Qc -> (0 <= / x)%Qc.
Proof.
  intros X N. apply (Qcmult_lt_0_le_reg_r _ _ x); [now apply Qc_nonneg_neq0_pos|]. rewrite Qcmult_0_l, Qcmult_inv_l by exact N. discriminate.
Qed.

Lemma answers_odds lo hi k b b' ev Q f f' q r : wf_bn b -> nonneg_bn b -> wf_bn b' -> nonneg_bn b' -> perturbed lo hi k b b' ->
  asked b ev Q -> answer b ev Q f -> answer b' ev Q f' -> is_inst b Q q -> is_inst b Q r ->
  (potential_at f' q * potential_at f r <= slack lo hi k * potential_at f q * potential_at f' r)%Qc.
Proof.
  intros WB NN WB' NN' P AS A A' Iq Ir. pose proof (p_asked lo hi k b b' P ev Q AS) as AS'.
  rewrite (answer_at b WB NN ev Q f q AS A Iq), (answer_at b WB NN ev Q f r AS A Ir).
  rewrite (answer_at b' WB' NN' ev Q f' q AS' A' (p_inst lo hi k b b' P Q q Iq)), (answer_at b' WB' NN' ev Q f' r AS' A' (p_inst lo hi k b b' P Q r Ir)).
  destruct AS as (EO & _), AS' as (EO' & _). pose proof (mass_nonneg b WB ev [] NN EO) as M0. pose proof (mass_nonneg b' WB' ev [] NN' EO') as M0'.
  destruct (p_mass lo hi k b b' NN P ev q EO) as [_ B]. destruct (p_mass lo hi k b b' NN P ev r EO) as [C _]. destruct P as (L & H & _).
  assert (LN : lo <> 0%Qc) by (intros ->; discriminate L).
  pose proof (odds_near _ _ _ _ _ _ _ (slack_powc lo hi k LN) (slack_nonneg lo hi k L H) (mass_nonneg b WB ev q NN EO) (mass_nonneg b WB ev r NN EO) B C) as O.
  unfold posterior. destruct (qeqb (mass b ev []) 0%Qc) eqn:Z; destruct (qeqb (mass b' ev []) 0%Qc) eqn:Z'; rewrite ?Qcmult_0_r, ?Qcmult_0_l; try apply Qcle_refl.
  - apply qeqb_false in Z, Z'. exact (odds_posterior _ (mass b ev) (mass b' ev) q r _ _ O (Qcinv_nonneg_c _ M0 Z) (Qcinv_nonneg_c _ M0' Z')).
Qed.
