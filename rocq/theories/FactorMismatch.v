(** Products and sums of factors that list the values of a common variable
    differently. *)
From Verif Require Import Base BaseFacts NDArray NDArrayFacts SumCalc Factor FactorFacts Exact Spec SpecFacts FactorSpec FactorProofs.

Lemma bshape_clash {A} (g1 g2 : A -> nat) l v : In v l -> g1 v <> g2 v -> g1 v <> 1 -> g2 v <> 1 -> bshape (map g1 l) (map g2 l) = Err ValueError.
Proof.
  intros I N N1 N2. assert (S : forall l, bshape (map g1 l) (map g2 l) = Err ValueError \/ exists s, bshape (map g1 l) (map g2 l) = Ok s).
  { clear. induction l as [|w l IH]; cbn; [right; eauto|]. destruct IH as [->|[s ->]]; cbn; [left; reflexivity|].
    destruct (Nat.eqb _ _); [right; eauto|]. destruct (Nat.eqb _ 1); [right; eauto|]. destruct (Nat.eqb (g2 w) 1); [right; eauto|left; reflexivity]. }
  induction l as [|w l IH]; [contradiction|]. cbn. destruct I as [->|I].
  - destruct (S l) as [->|[s ->]]; cbn; [reflexivity|]. apply Nat.eqb_neq in N, N1, N2. now rewrite N, N1, N2.
  - now rewrite IH.
Qed.

Section SO.
Context {SO : SetOrder}.

Lemma combine_clash op f g v : good_factor f -> good_factor g -> In v (vorder f) -> In v (vorder g) ->
  length (fvalues f v) <> length (fvalues g v) -> length (fvalues f v) <> 1 -> length (fvalues g v) <> 1 ->
  fcombine op f g = Err ValueError.
Proof.
  intros Gf Gg If Ig NE N1 N2. assert (Wf := good_self f Gf). assert (Wg := good_self g Gg).
  unfold fcombine. destruct (vorder f) as [|f0 lf] eqn:Of; [contradiction|]. rewrite <- Of in *.
  destruct (vorder g) as [|g0 lg] eqn:Og; [contradiction|]. rewrite <- Og in *. clear f0 lf Of g0 lg Og.
  set (extra := sdiff (vorder g) (vorder f)).
  assert (NX : NoDup extra) by apply sdiff_nodup.
  assert (SX : forall x, In x extra <-> In x (vorder g) /\ ~ In x (vorder f)) by apply sdiff_spec.
  set (rorder := vorder f ++ extra).
  assert (NR : NoDup rorder).
  { apply NoDup_app_disj; [apply Gf|exact NX|]. intros x H1 H2; apply SX in H2; tauto. }
  assert (SR : forall x, In x rorder <-> In x (vorder f) \/ In x (vorder g)).
  { intros x. unfold rorder. rewrite in_app_iff, SX. destruct (In_dec_s x (vorder f)); tauto. }
  set (extra2 := sdiff rorder (vorder g)).
  assert (NX2 : NoDup extra2) by apply sdiff_nodup.
  assert (SX2 : forall x, In x extra2 <-> In x rorder /\ ~ In x (vorder g)) by apply sdiff_spec.
  set (order2 := vorder g ++ extra2).
  assert (ND2 : NoDup order2).
  { apply NoDup_app_disj; [apply Gg|exact NX2|]. intros x H1 H2; apply SX2 in H2; tauto. }
  assert (S2 : forall x, In x order2 <-> In x rorder).
  { intros x. unfold order2. rewrite in_app_iff, SX2, SR. destruct (In_dec_s x (vorder g)); tauto. }
  destruct (add_vals_spec (fvalues g) extra (fvals g) (fvals f)) as (d' & Ed & _).
  { exact NX. } { intros w Hw. apply SX in Hw. apply fvalues_some; tauto. } { apply Gf. }
  rewrite Ed. cbn [rbind]. rewrite (mapM_total _ (fun w => idx w order2)).
  2: { intros w Hw. apply py_index_ok, S2, Hw. }
  cbn [rbind].
  destruct (expand_named (fvalues f) (pot f) (vorder f) extra) as [Sf _].
  { apply Gf. } { intros x H1 H2; apply SX in H2; tauto. } { apply Gf. }
  destruct (expand_named (fvalues g) (pot g) (vorder g) extra2) as [Sg _].
  { apply Gg. } { intros x H1 H2; apply SX2 in H2; tauto. } { apply Gg. }
  fold rorder in Sf. fold order2 in Sg.
  destruct (transpose_named _ order2 rorder _ ND2 NR S2 Sg) as (p2 & Et & _ & Sp2 & _).
  rewrite Et. cbn [rbind]. unfold zipb, rank. rewrite Sf, Sp2, !map_length, Nat.max_id.
  rewrite !padded_id by apply map_length. rewrite (bshape_clash _ _ rorder v); [reflexivity| | | |].
  - apply SR. now left.
  - apply mem_In in If, Ig. now rewrite If, Ig.
  - apply mem_In in If. now rewrite If.
  - apply mem_In in Ig. now rewrite Ig.
Qed.

(** [g] with the names that [f] uses. *)
Definition relabel (f g : factor) : factor :=
  mkF (pot g) (vorder g) (map (fun p => (fst p, if mem (fst p) (vorder f) then fvalues f (fst p) else snd p)) (fvals g)).

Lemma dget_relabel f g v : dget v (fvals (relabel f g)) = option_map (fun l => if mem v (vorder f) then fvalues f v else l) (dget v (fvals g)).
Proof.
  cbn. induction (fvals g) as [|[w l] d IH]; cbn; [reflexivity|]. destruct (String.eqb_spec v w) as [->|N]; [reflexivity|exact IH].
Qed.

Lemma relabel_values f g v : good_factor g -> In v (vorder g) -> fvalues (relabel f g) v = if mem v (vorder f) then fvalues f v else fvalues g v.
Proof. intros G I. unfold fvalues at 1. rewrite dget_relabel, (fvalues_some g v G I). reflexivity. Qed.

Lemma relabel_good f g : good_factor f -> good_factor g -> (forall v, In v (vorder f) -> In v (vorder g) -> length (fvalues f v) = length (fvalues g v)) ->
  good_factor (relabel f g).
Proof.
  intros Gf Gg L. assert (K : dkeys (fvals (relabel f g)) = dkeys (fvals g)) by (unfold dkeys; cbn; rewrite map_map; reflexivity).
  split; try rewrite K; try apply Gg.
  - cbn [pot relabel vorder]. rewrite (gf_shape g Gg). apply map_ext_in. intros v I. rewrite relabel_values by assumption.
    destruct (mem v (vorder f)) eqn:E; [|reflexivity]. apply mem_In in E. now rewrite L.
  - intros v I. rewrite relabel_values by assumption. destruct (mem v (vorder f)) eqn:E; [|now apply Gg]. apply mem_In in E. now apply Gf.
Qed.

Lemma foldM_ext_in {A B} (f g : B -> A -> res B) l : (forall b a, In a l -> f b a = g b a) -> forall b, foldM f l b = foldM g l b.
Proof.
  induction l as [|a l IH]; intros H b; [reflexivity|]. cbn [foldM]. rewrite H by now left. destruct (g b a); cbn [rbind]; [|reflexivity].
  apply IH. intros b' a' I. apply H. now right.
Qed.

Lemma combine_relabel op f g : fcombine op f g = fcombine op f (relabel f g).
Proof.
  unfold fcombine. destruct (vorder f) as [|f0 lf] eqn:Of.
  - cbn [relabel pot vorder]. assert (E : fvals (relabel f g) = fvals g); [|now rewrite E].
    cbn. rewrite Of. rewrite <- (map_id (fvals g)) at 2. apply map_ext. intros []. reflexivity.
  - rewrite <- Of in *. clear f0 lf Of. cbn [relabel pot vorder]. destruct (vorder g) as [|g0 lg] eqn:Og; [reflexivity|]. rewrite <- Og in *.
    assert (E : add_vals (sdiff (vorder g) (vorder f)) (fvals (relabel f g)) (fvals f) = add_vals (sdiff (vorder g) (vorder f)) (fvals g) (fvals f)).
    { apply foldM_ext_in. intros d v I. apply sdiff_spec in I as [_ I]. apply mem_nIn in I. unfold dget_err. rewrite dget_relabel, I.
      destruct (dget v (fvals g)); reflexivity. }
    cbv zeta. now rewrite E.
Qed.

Lemma dget_translated f g q v : dget v (translated f g q) =
  option_map (fun x => if mem v (vorder f) && mem v (vorder g) then nth (position x (fvalues f v)) (fvalues g v) "" else x) (dget v q).
Proof.
  unfold translated. induction q as [|[w x] q IH]; cbn; [reflexivity|]. destruct (String.eqb_spec v w) as [->|N]; [reflexivity|exact IH].
Qed.

Lemma relabel_at f g q : good_factor f -> good_factor g -> (forall v, In v (vorder f) -> In v (vorder g) -> length (fvalues f v) = length (fvalues g v)) ->
  legal (relabel f g) q -> potential_at (relabel f g) q = potential_at g (translated f g q).
Proof.
  intros Gf Gg L H. unfold potential_at. cbn [pot relabel vorder]. f_equal. apply map_ext_in. intros v I. fold (relabel f g).
  destruct (H v I) as (x & E & X). rewrite relabel_values in X by assumption. unfold look. rewrite dget_translated, E. cbn [option_map].
  change (match dget v (fvals (relabel f g)) with Some l => l | None => [] end) with (fvalues (relabel f g) v).
  change (match dget v (fvals g) with Some l => l | None => [] end) with (fvalues g v).
  rewrite relabel_values by assumption. assert (M := I). apply mem_In in M. rewrite M, andb_true_r. destruct (mem v (vorder f)) eqn:F; [|reflexivity].
  apply mem_In in F. rewrite !position_idx, idx_nth; [reflexivity|now apply Gg|]. rewrite <- L by assumption. now apply idx_lt.
Qed.

(** Equal numbers of values: entries are paired by position, and the result uses
    the names of the left operand. *)
Lemma combine_positions op f g : good_factor f -> good_factor g ->
  (forall v, In v (vorder f) -> In v (vorder g) -> length (fvalues f v) = length (fvalues g v)) ->
  exists h, fcombine op f g = Ok h /\ good_factor h /\
    (forall v, In v (vorder h) <-> In v (vorder f) \/ In v (vorder g)) /\
    (forall v, In v (vorder f) -> fvalues h v = fvalues f v) /\
    (forall v, ~ In v (vorder f) -> In v (vorder g) -> fvalues h v = fvalues g v) /\
    (forall q, legal h q -> potential_at h q = op (potential_at f q) (potential_at g (translated f g q))).
Proof.
  intros Gf Gg L. assert (Gr := relabel_good f g Gf Gg L).
  destruct (combine_named op f (relabel f g) Gf Gr) as (h & E & Gh & O & Vf & Vg & P).
  { intros v If Ig. rewrite relabel_values by assumption. apply mem_In in If. now rewrite If. }
  exists h. rewrite combine_relabel. split; [exact E|]. split; [exact Gh|]. split; [exact O|]. split; [exact Vf|]. split.
  - intros v N I. rewrite Vg by exact I. rewrite relabel_values by assumption. apply mem_nIn in N. now rewrite N.
  - intros q Lq. rewrite P by exact Lq. f_equal. apply relabel_at; try assumption.
    intros v I. destruct (Lq v) as (x & X & Hx); [apply O; now right|]. exists x. split; [exact X|]. rewrite <- Vg by exact I. exact Hx.
Qed.

End SO.
