(** Which exception an operation on factors raises. *)
From Verif Require Import Base BaseFacts NDArray NDArrayFacts SumCalc Factor FactorFacts Exact Spec SpecFacts FactorSpec FactorProofs FactorMismatch FactorErrSpec.

Lemma clash_dec f g : clash f g \/ ~ clash f g.
Proof.
  set (t := fun v => mem v (vorder g) && negb (Nat.eqb (length (fvalues f v)) (length (fvalues g v))) && negb (Nat.eqb (length (fvalues f v)) 1) && negb (Nat.eqb (length (fvalues g v)) 1)).
  destruct (existsb t (vorder f)) eqn:E.
  - left. apply existsb_exists in E as (v & I & T). unfold t in T. apply andb_prop in T as [T T4]. apply andb_prop in T as [T T3]. apply andb_prop in T as [T1 T2].
    exists v. apply mem_In in T1. apply negb_true_iff, Nat.eqb_neq in T2, T3, T4. auto.
  - right. intros (v & I & J & N & N1 & N2). assert (X : existsb t (vorder f) = true); [|congruence].
    apply existsb_exists. exists v. split; [exact I|]. unfold t. apply mem_In in J. apply Nat.eqb_neq in N, N1, N2. now rewrite J, N, N1, N2.
Qed.

Lemma no_clash f g v : ~ clash f g -> In v (vorder f) -> In v (vorder g) ->
  length (fvalues f v) = length (fvalues g v) \/ length (fvalues f v) = 1 \/ length (fvalues g v) = 1.
Proof.
  intros N I J. destruct (Nat.eq_dec (length (fvalues f v)) (length (fvalues g v))); [auto|]. destruct (Nat.eq_dec (length (fvalues f v)) 1); [auto|].
  destruct (Nat.eq_dec (length (fvalues g v)) 1); [auto|]. exfalso. apply N. exists v. auto.
Qed.

Section SO.
Context {SO : SetOrder}.

(** No clash: the result, whatever the numbers of values. *)
Lemma combine_stretched op f g : good_factor f -> good_factor g -> ~ clash f g ->
  exists h, fcombine op f g = Ok h /\ NoDup (vorder h) /\ NoDup (dkeys (fvals h)) /\ (forall v, In v (dkeys (fvals h)) <-> In v (vorder h)) /\
    (forall v, In v (vorder h) <-> In v (vorder f) \/ In v (vorder g)) /\
    (forall v, In v (vorder f) -> fvalues h v = fvalues f v) /\
    (forall v, ~ In v (vorder f) -> In v (vorder g) -> fvalues h v = fvalues g v) /\
    shape (pot h) = map (positions f g) (vorder h) /\ length (data (pot h)) = prodn (shape (pot h)) /\
    (forall a, (forall v, In v (vorder h) -> a v < positions f g v) ->
       aget (pot h) (map a (vorder h)) = op (entry_at f a) (entry_at g a)).
Proof.
  intros Gf Gg NC. unfold fcombine.
  assert (PF : forall v, ~ In v (vorder g) -> In v (vorder f) -> positions f g v = length (fvalues f v)).
  { intros v N I. unfold positions. apply mem_nIn in N. apply mem_In in I. now rewrite N, I. }
  assert (PG : forall v, ~ In v (vorder f) -> positions f g v = length (fvalues g v)).
  { intros v N. unfold positions. apply mem_nIn in N. now rewrite N. }
  assert (CL : forall f (G : good_factor f) a l, incl l (vorder f) -> (forall v, In v l -> a v < length (fvalues f v)) ->
     map (fun v => if Nat.eqb (length (fvalues f v)) 1 then 0 else a v) l = map a l).
  { clear. intros f G a l I R. apply map_ext_in. intros v H. specialize (R v H). destruct (Nat.eqb_spec (length (fvalues f v)) 1); [lia|reflexivity]. }
  destruct (vorder f) as [|v0 vf] eqn:Ef.
  { assert (P := gf_data _ Gf). assert (S := gf_shape _ Gf). rewrite Ef in S; cbn in S.
    rewrite (wfa_rank0 _ P S). rewrite zipb_scalar_l. cbn [rbind].
    eexists; split; [reflexivity|]. cbn [vorder fvals pot]. split; [apply Gg|]. split; [apply Gg|]. split; [apply Gg|]. split; [cbn; tauto|].
    split; [intros v []|]. split; [reflexivity|]. split; [|split].
    - cbn [shape tabulate]. rewrite (gf_shape _ Gg). apply map_ext_in. intros v I. symmetry. apply PG. now intros [].
    - apply wfa_tabulate.
    - intros a R. rewrite aget_tabulate.
      + unfold entry_at at 1. rewrite Ef. cbn [map]. f_equal. unfold entry_at. rewrite CL; [reflexivity|exact Gg|apply incl_refl|]. intros v I. rewrite <- PG by (now intros []). now apply R.
      + rewrite (gf_shape _ Gg). apply inb_map. intros v I. rewrite <- PG by (now intros []). now apply R. }
  destruct (vorder g) as [|w0 vg] eqn:Eg.
  { assert (P := gf_data _ Gg). assert (S := gf_shape _ Gg). rewrite Eg in S; cbn in S.
    rewrite (wfa_rank0 _ P S). rewrite zipb_scalar_r. cbn [rbind]. rewrite <- Ef in *.
    eexists; split; [reflexivity|]. cbn [vorder fvals pot]. split; [apply Gf|]. split; [apply Gf|]. split; [apply Gf|]. split; [cbn; tauto|].
    split; [reflexivity|]. split; [intros v _ []|]. split; [|split].
    - cbn [shape tabulate]. rewrite (gf_shape _ Gf). apply map_ext_in. intros v I. symmetry. apply PF; [now intros []|exact I].
    - apply wfa_tabulate.
    - intros a R. rewrite aget_tabulate.
      + unfold entry_at at 2. rewrite Eg. cbn [map]. f_equal. unfold entry_at. rewrite CL; [reflexivity|exact Gf|apply incl_refl|]. intros v I. rewrite <- PF; [now apply R|now intros []|exact I].
      + rewrite (gf_shape _ Gf). apply inb_map. intros v I. rewrite <- PF; [now apply R|now intros []|exact I]. }
  rewrite <- Ef, <- Eg in *. clear Ef Eg v0 vf w0 vg CL.
  set (extra := sdiff (vorder g) (vorder f)).
  assert (NX : NoDup extra) by apply sdiff_nodup.
  assert (SX : forall x, In x extra <-> In x (vorder g) /\ ~ In x (vorder f)) by apply sdiff_spec.
  set (rorder := vorder f ++ extra).
  assert (NR : NoDup rorder).
  { apply NoDup_app_disj; [apply Gf|exact NX|]. intros x H1 H2; apply SX in H2; tauto. }
  assert (SR : forall x, In x rorder <-> In x (vorder f) \/ In x (vorder g)).
  { intros x. unfold rorder. rewrite in_app_iff, SX. destruct (In_dec_s x (vorder f)); tauto. }
  set (extra2 := sdiff rorder (vorder g)).
  assert (NX2 : NoDup extra2) by apply sdiff_nodup.
  assert (SX2 : forall x, In x extra2 <-> In x rorder /\ ~ In x (vorder g)) by apply sdiff_spec.
  set (order2 := vorder g ++ extra2).
  assert (ND2 : NoDup order2).
  { apply NoDup_app_disj; [apply Gg|exact NX2|]. intros x H1 H2; apply SX2 in H2; tauto. }
  assert (S2 : forall x, In x order2 <-> In x rorder).
  { intros x. unfold order2. rewrite in_app_iff, SX2, SR. destruct (In_dec_s x (vorder g)); tauto. }
  destruct (add_vals_spec (fvalues g) extra (fvals g) (fvals f)) as (d' & Ed & Nd & Kd & Vd & Od).
  { exact NX. } { intros w Hw. apply SX in Hw. apply fvalues_some; tauto. } { apply Gf. }
  rewrite Ed. cbn [rbind]. rewrite (mapM_total _ (fun w => idx w order2)).
  2: { intros w Hw. apply py_index_ok, S2, Hw. }
  cbn [rbind].
  destruct (expand_named (fvalues f) (pot f) (vorder f) extra) as [Sf Af].
  { apply Gf. } { intros x H1 H2; apply SX in H2; tauto. } { apply Gf. }
  destruct (expand_named (fvalues g) (pot g) (vorder g) extra2) as [Sg Ag].
  { apply Gg. } { intros x H1 H2; apply SX2 in H2; tauto. } { apply Gg. }
  fold rorder in Sf, Af. fold order2 in Sg, Ag.
  destruct (transpose_named _ order2 rorder _ ND2 NR S2 Sg) as (p2 & Et & _ & Sp2 & Ap2).
  rewrite Et. cbn [rbind]. unfold zipb, rank. rewrite Sf, Sp2, !map_length, Nat.max_id.
  rewrite !padded_id by apply map_length. rewrite (bshape_map _ _ (positions f g)).
  2: { intros v Hv. apply SR in Hv. unfold positions.
       destruct (mem v (vorder f)) eqn:E1, (mem v (vorder g)) eqn:E2; cbn [andb].
       - apply mem_In in E1, E2. destruct (no_clash f g v NC E1 E2) as [X|[X|X]]; unfold card;
           destruct (Nat.eqb_spec (length (fvalues f v)) 1); lia.
       - auto. - auto. - apply mem_nIn in E1, E2. tauto. }
  cbn [rbind]. eexists; split; [reflexivity|]. cbn [vorder fvals pot].
  assert (VF : forall v, In v (vorder f) -> dget v d' = dget v (fvals f)).
  { intros v I. apply Od. intros X. apply SX in X. tauto. }
  split; [exact NR|]. split; [exact Nd|]. split.
  { intros v. rewrite Kd, (gf_same _ Gf). unfold rorder. rewrite in_app_iff. tauto. }
  split; [exact SR|]. split; [intros v I; unfold fvalues; cbn [fvals]; now rewrite VF|].
  split; [intros v N I; unfold fvalues at 1; cbn [fvals]; rewrite Vd; [reflexivity|now apply SX]|]. split; [reflexivity|]. split; [apply wfa_tabulate|].
  intros a R. rewrite aget_tabulate by (apply inb_map; exact R). f_equal.
  - rewrite bget_full by (unfold rank; rewrite Sf, !map_length; reflexivity).
    rewrite Sf, clip_map. unfold rorder at 1. rewrite Af.
    + unfold entry_at. f_equal. apply map_ext_in. intros v Hv. apply mem_In in Hv. rewrite Hv. reflexivity.
    + intros v Hv. apply SX in Hv as [_ Hv]. apply mem_nIn in Hv. rewrite Hv. reflexivity.
  - rewrite bget_full by (unfold rank; rewrite Sp2, !map_length; reflexivity).
    rewrite Sp2, clip_map. rewrite Ap2.
    + unfold order2. rewrite Ag.
      * unfold entry_at. f_equal. apply map_ext_in. intros v Hv. apply mem_In in Hv. rewrite Hv. reflexivity.
      * intros v Hv. apply SX2 in Hv as [_ Hv]. apply mem_nIn in Hv. rewrite Hv. reflexivity.
    + intros v Hv. specialize (R v Hv). destruct (mem v (vorder g)) eqn:E2; [|cbn; lia]. unfold card.
      destruct (Nat.eqb_spec (length (fvalues g v)) 1) as [E1|N1]; [lia|]. unfold positions in R. rewrite E2 in R. cbn [andb] in R.
      destruct (mem v (vorder f)) eqn:E1; [|exact R]. apply mem_In in E1, E2.
      destruct (no_clash f g v NC E1 E2) as [X|[X|X]]; destruct (Nat.eqb_spec (length (fvalues f v)) 1); lia.
Qed.

Lemma combine_err op f g e : good_factor f -> good_factor g -> (fcombine op f g = Err e <-> e = ValueError /\ clash f g).
Proof.
  intros Gf Gg. destruct (clash_dec f g) as [C|N].
  - assert (X : fcombine op f g = Err ValueError) by (destruct C as (v & I & J & H1 & H2 & H3); exact (combine_clash op f g v Gf Gg I J H1 H2 H3)).
    rewrite X. split; [intros [= <-]; auto|now intros [-> _]].
  - destruct (combine_stretched op f g Gf Gg N) as (h & E & _). rewrite E. split; [discriminate|tauto].
Qed.

Lemma stretched_good op f g h : good_factor f -> good_factor g -> fcombine op f g = Ok h -> (good_factor h <-> ~ too_short f g).
Proof.
  intros Gf Gg E. assert (N : ~ clash f g). { intros C. rewrite (proj2 (combine_err op f g ValueError Gf Gg)) in E by auto. discriminate. }
  destruct (combine_stretched op f g Gf Gg N) as (h' & E' & N1 & N2 & K & O & VF & VG & S & D & _). rewrite E in E'. injection E' as <-.
  split.
  - intros G (v & I & J & L & L'). assert (X := gf_shape _ G). rewrite S in X. assert (Y := proj1 map_ext_in_iff X v (proj2 (O v) (or_introl I))).
    cbn in Y. rewrite (VF v I) in Y. unfold positions in Y. apply mem_In in I, J. rewrite I, J, L in Y. cbn in Y. congruence.
  - intros T. split; [exact N1|exact N2|exact K| |exact D|].
    + rewrite S. apply map_ext_in. intros v I. unfold positions. destruct (mem v (vorder f)) eqn:F; [|].
      * assert (F' := F). apply mem_In in F'. rewrite VF by exact F'. destruct (mem v (vorder g)) eqn:G; [|reflexivity]. cbn [andb]. apply mem_In in G.
        destruct (Nat.eqb_spec (length (fvalues f v)) 1) as [L|L]; [|reflexivity]. destruct (Nat.eq_dec (length (fvalues g v)) 1) as [L'|L']; [lia|].
        exfalso. apply T. exists v. auto.
      * apply mem_nIn in F. rewrite VG; [reflexivity|exact F|]. apply O in I. tauto.
    + intros v I. destruct (In_dec_s v (vorder f)) as [F|F]; [rewrite VF by exact F; now apply Gf|]. apply O in I as [I|I]; [tauto|]. rewrite VG by assumption. now apply Gg.
Qed.

Lemma zero_data f : good_factor f -> vorder f = [] -> existsb (fun x => qeqb x 0%Qc) (data (pot f)) = qeqb (potential_at f []) 0%Qc.
Proof.
  intros G O. assert (S := gf_shape _ G). rewrite O in S. cbn in S. assert (P := gf_data _ G). unfold potential_at. rewrite O. cbn [map].
  rewrite (wfa_rank0 (pot f) P S). cbn. apply orb_false_r.
Qed.

Lemma invert_err f e : good_factor f -> (finvert f = Err e <-> e = FloatingPointError /\ only_zero f).
Proof.
  intros G. unfold finvert, only_zero. destruct (vorder f) as [|v l] eqn:O.
  - rewrite (zero_data f G O). destruct (qeqb (potential_at f []) 0%Qc) eqn:Z.
    + apply qeqb_true in Z. rewrite Z. split; [intros [= <-]; auto|now intros [-> _]].
    + apply qeqb_false in Z. split; [discriminate|tauto].
  - split; [discriminate|]. intros (_ & X & _). discriminate.
Qed.

Lemma invert_keeps f i : finvert f = Ok i -> vorder i = vorder f /\ fvals i = fvals f /\ shape (pot i) = shape (pot f) /\ length (data (pot i)) = length (data (pot f)).
Proof.
  unfold finvert. destruct (vorder f) as [|v l] eqn:O.
  - destruct (existsb _ _); [discriminate|]. intros [= <-]. cbn. now rewrite map_length.
  - intros [= <-]. cbn. now rewrite map_length.
Qed.

Lemma invert_good f i : good_factor f -> finvert f = Ok i -> good_factor i.
Proof.
  intros G E. destruct (invert_keeps f i E) as (O & V & S & D). destruct G as [G1 G2 G3 G4 G5 G6].
  split; unfold fvalues in *; rewrite ?O, ?V, ?S, ?D; assumption.
Qed.

Lemma clash_same f g g' : vorder g' = vorder g -> fvals g' = fvals g -> (clash f g' <-> clash f g).
Proof. intros O V. unfold clash, fvalues. now rewrite O, V. Qed.

Lemma subset_scope f g : good_factor f -> good_factor g -> (subset (dkeys (fvals g)) (dkeys (fvals f)) = true <-> incl (vorder g) (vorder f)).
Proof.
  intros Gf Gg. rewrite subset_spec. split.
  - intros I v H. apply (gf_same _ Gf), I, (gf_same _ Gg), H.
  - intros I v H. apply (gf_same _ Gf), I, (gf_same _ Gg), H.
Qed.

Lemma divide_err f g e : good_factor f -> good_factor g -> (fdiv f g = Err e <->
  (e = ValueError /\ (~ incl (vorder g) (vorder f) \/ clash f g)) \/ (e = FloatingPointError /\ only_zero g)).
Proof.
  intros Gf Gg. unfold fdiv. destruct (subset _ _) eqn:S.
  - apply subset_scope in S; try assumption. destruct (finvert g) as [i|e'] eqn:I; cbn [rbind].
    + destruct (invert_keeps g i I) as (O & V & _). assert (Gi := invert_good g i Gg I). unfold fmul. rewrite (combine_err Qcmult f i e Gf Gi).
      rewrite (clash_same f g i O V). split; [intuition|]. intros [[-> [X|X]]|[-> X]]; [tauto|auto|].
      exfalso. assert (Y := proj2 (invert_err g FloatingPointError Gg)). rewrite I in Y. discriminate Y. auto.
    + assert (X := proj1 (invert_err g e' Gg) I). destruct X as [-> Z]. split; [intros [= <-]; auto|]. intros [[-> [X|X]]|[-> _]]; [tauto| |reflexivity].
      destruct X as (v & _ & J & _). destruct Z as [Z _]. rewrite Z in J. destruct J.
  - assert (N : ~ incl (vorder g) (vorder f)) by (intros I; apply subset_scope in I; try assumption; congruence).
    split; [intros [= <-]; auto|]. intros [[-> _]|[-> [Z _]]]; [reflexivity|]. exfalso. apply N. rewrite Z. intros x [].
Qed.

End SO.

Lemma marginalize_err f vs e : good_factor f -> (marginalize f vs = Err e <-> e = ValueError /\ (~ NoDup vs \/ ~ incl vs (vorder f))).
Proof.
  intros G. assert (T : (~ NoDup vs \/ ~ incl vs (vorder f)) \/ (NoDup vs /\ incl vs (vorder f))).
  { destruct (nodup_s vs) eqn:E; [apply nodup_s_spec in E|left; left; intros X; apply nodup_s_spec in X; congruence].
    destruct (subset vs (vorder f)) eqn:S; [apply subset_spec in S; auto|left; right; intros X; apply subset_spec in X; congruence]. }
  destruct T as [B|[N I]].
  - rewrite (marginalize_bad f vs G B). split; [intros [= <-]; auto|now intros [-> _]].
  - destruct (marginalize_named f vs G N I) as (h & E & _). rewrite E. split; [discriminate|tauto].
Qed.

(** The first failure *)
Lemma mapM_first {A B} (f : A -> res B) l e : mapM f l = Err e <-> exists l1 x l2, l = l1 ++ x :: l2 /\ (forall y, In y l1 -> exists b, f y = Ok b) /\ f x = Err e.
Proof.
  induction l as [|a l IH]; cbn.
  - split; [discriminate|]. intros ([|] & x & l2 & E & _); discriminate.
  - destruct (f a) as [b|e'] eqn:E; cbn.
    + assert (X : (let* ys := mapM f l in Ok (b :: ys)) = Err e <-> mapM f l = Err e) by (destruct (mapM f l); cbn; split; congruence).
      rewrite X, IH. split.
      * intros (l1 & x & l2 & -> & H & F). exists (a :: l1), x, l2. split; [reflexivity|]. split; [|exact F]. intros y [<-|I]; [eauto|auto].
      * intros ([|a' l1] & x & l2 & E1 & H & F); cbn in E1; injection E1 as -> ->; [congruence|]. exists l1, x, l2. split; [reflexivity|]. split; [|exact F]. intros y I. apply H. now right.
    + split.
      * intros [= ->]. exists [], a, l. split; [reflexivity|]. split; [intros y []|exact E].
      * intros ([|a' l1] & x & l2 & E1 & H & F); cbn in E1; injection E1 as -> ->; [congruence|]. destruct (H a' (or_introl eq_refl)). congruence.
Qed.

Lemma select_err f sel e : good_factor f -> (get_potential f sel = Err e <->
  e = ValueError /\ exists v l x, In v (vorder f) /\ dget v sel = Some l /\ In x l /\ ~ In x (fvalues f v)).
Proof.
  intros G. split.
  - unfold get_potential. destruct (mapM _ (vorder f)) as [ix|e'] eqn:M; cbn [rbind]; [destruct sel; discriminate|]. intros [= <-].
    apply mapM_first in M as (l1 & v & l2 & O & _ & F). assert (I : In v (vorder f)) by (rewrite O; apply in_or_app; right; now left).
    unfold dget_err in F. rewrite (fvalues_some f v G I) in F. cbn [rbind] in F. destruct (dget v sel) as [l|] eqn:S; [|discriminate].
    apply mapM_first in F as (m1 & x & m2 & L & _ & F). destruct (In_dec_s x (fvalues f v)) as [J|J]; [rewrite py_index_ok in F by exact J; discriminate|].
    rewrite py_index_err in F by exact J. injection F as <-. split; [reflexivity|]. exists v, l, x. split; [exact I|]. split; [exact S|]. split; [|exact J].
    rewrite L. apply in_or_app. right. now left.
  - intros (-> & v & l & x & I & S & X & N). exact (get_potential_bad f sel v l x G I S X N).
Qed.

Lemma const_err q order values e : const_factor q order values = Err e <-> e = KeyError /\ exists v, In v order /\ ~ In v (dkeys values).
Proof.
  unfold const_factor. split.
  - destruct (mapM _ order) as [vs|e'] eqn:M; cbn [rbind]; [discriminate|]. intros [= <-]. apply mapM_first in M as (l1 & v & l2 & -> & _ & F).
    unfold dget_err in F. destruct (dget v values) as [l|] eqn:D; [discriminate|]. injection F as <-. split; [reflexivity|]. exists v. split; [apply in_or_app; right; now left|].
    intros I. apply dget_key in I as [l E]. congruence.
  - intros (-> & v & I & N). rewrite (mapM_err _ KeyError); [reflexivity| |].
    + intros w _. unfold dget_err. destruct (dget w values); eauto.
    + exists v. split; [exact I|]. unfold dget_err. destruct (dget v values) as [l|] eqn:D; [|reflexivity]. exfalso. apply N. apply dget_In in D. apply in_map_iff. exists (v, l). auto.
Qed.

Lemma evidence_err v values ev e : as_evidence v values ev None = Err e <-> e = ValueError /\ misfit values ev.
Proof.
  unfold as_evidence, misfit. destruct ev as [x|q].
  - destruct (index_of x values) as [i|] eqn:I.
    + split; [discriminate|]. intros [_ N]. exfalso. destruct (In_dec_s x values) as [J|J]; [tauto|]. assert (Y := py_index_err x values J). unfold py_index in Y. rewrite I in Y. discriminate.
    + split; [|now intros [-> _]]. intros [= <-]. split; [reflexivity|]. intros J. assert (Y := py_index_ok x values J). unfold py_index in Y. rewrite I in Y. discriminate.
  - destruct (Nat.eqb_spec (length q) (length values)) as [E|N]; [split; [discriminate|tauto]|]. split; [intros [= <-]; auto|now intros [-> _]].
Qed.

(** Samples *)
Notation cell vars s := (mapM (fun p => let* x := dget_err KeyError (fst p) s in py_index x (snd p)) vars).

Lemma cell_ok vars s : (exists ix, cell vars s = Ok ix) <-> sample_ok vars s.
Proof.
  split.
  - intros [ix E] v l I. apply mapM_ok in E. induction E as [|[w m] i vars ix E1 E IH]; [destruct I|]. destruct I as [X|I]; [|auto].
    injection X as -> ->. cbn in E1. unfold dget_err in E1. destruct (dget v s) as [x|]; [|discriminate]. cbn in E1. exists x. split; [reflexivity|].
    destruct (In_dec_s x l); [assumption|]. rewrite py_index_err in E1 by assumption. discriminate.
  - intros H. induction vars as [|[v l] vars IH]; [cbn; eauto|]. cbn. destruct (H v l (or_introl eq_refl)) as (x & D & I).
    unfold dget_err at 1. rewrite D. cbn. rewrite py_index_ok by exact I. cbn. destruct IH as [ix ->]; [|cbn; eauto]. intros w m J. apply H. now right.
Qed.

Lemma cell_err vars s e : cell vars s = Err e <-> bad_sample vars s e.
Proof.
  rewrite mapM_first. unfold bad_sample. split.
  - intros (l1 & [v l] & l2 & -> & H & F). exists l1, v, l, l2. split; [reflexivity|]. split.
    + apply cell_ok. clear - H. induction l1 as [|p l1 IH]; [cbn; eauto|]. cbn. destruct (H p (or_introl eq_refl)) as [b ->]. cbn. destruct IH as [ix ->]; [|cbn; eauto]. intros y I. apply H. now right.
    + cbn in F. unfold dget_err in F. destruct (dget v s) as [x|] eqn:D; cbn in F.
      * right. destruct (In_dec_s x l) as [J|J]; [rewrite py_index_ok in F by exact J; discriminate|]. rewrite py_index_err in F by exact J. injection F as <-. eauto.
      * injection F as <-. left. split; [reflexivity|]. intros I. apply dget_key in I as [y Y]. congruence.
  - intros (l1 & v & l & l2 & -> & H & F). exists l1, (v, l), l2. split; [reflexivity|]. split.
    + intros [w m] I. destruct (H w m I) as (x & D & J). cbn. unfold dget_err. rewrite D. cbn. rewrite py_index_ok by exact J. eauto.
    + cbn. unfold dget_err. destruct F as [[-> N]|[-> (x & D & J)]].
      * destruct (dget v s) as [x|] eqn:D; [|reflexivity]. exfalso. apply N. apply dget_In in D. apply in_map_iff. exists (v, x). auto.
      * rewrite D. cbn. now apply py_index_err.
Qed.

Lemma counting_err vars ss e : forall a,
  foldM (fun a s => let* ix := cell vars s in Ok (aset a ix (aget a ix + 1)%Qc)) ss a = Err e <->
  exists ss1 s ss2, ss = ss1 ++ s :: ss2 /\ (forall s', In s' ss1 -> sample_ok vars s') /\ bad_sample vars s e.
Proof.
  induction ss as [|s ss IH]; intros a; cbn [foldM].
  - split; [discriminate|]. intros ([|] & x & l2 & E & _); discriminate.
  - destruct (cell vars s) as [ix|e'] eqn:C; cbn [rbind].
    + assert (OKs : sample_ok vars s) by (apply cell_ok; eauto). rewrite IH. split.
      * intros (l1 & x & l2 & -> & H & F). exists (s :: l1), x, l2. split; [reflexivity|]. split; [|exact F]. intros y [<-|I]; auto.
      * intros ([|a' l1] & x & l2 & E1 & H & F); cbn in E1; injection E1 as -> ->.
        -- apply cell_err in F. congruence.
        -- exists l1, x, l2. split; [reflexivity|]. split; [|exact F]. intros y I. apply H. now right.
    + split.
      * intros [= ->]. exists [], s, ss. split; [reflexivity|]. split; [intros y []|now apply cell_err].
      * intros ([|a' l1] & x & l2 & E1 & H & F); cbn in E1; injection E1 as -> ->.
        -- apply cell_err in F. congruence.
        -- destruct (proj2 (cell_ok vars a') (H a' (or_introl eq_refl))). congruence.
Qed.

Lemma samples_err vars ss e : NoDup (dkeys vars) -> (forall v l, In (v, l) vars -> NoDup l) -> (from_samples ss vars = Err e <->
  (e = NonFinite /\ ss = []) \/ exists ss1 s ss2, ss = ss1 ++ s :: ss2 /\ (forall s', In s' ss1 -> sample_ok vars s') /\ bad_sample vars s e).
Proof.
  intros ND NV. unfold from_samples.
  destruct (foldM _ ss _) as [c|e'] eqn:F; cbn [rbind].
  - assert (NB : forall e ss1 s ss2, ss = ss1 ++ s :: ss2 -> (forall s', In s' ss1 -> sample_ok vars s') -> bad_sample vars s e -> False).
    { intros e1 ss1 s ss2 E H B. assert (X := proj2 (counting_err vars ss e1 (np_zeros (map (fun p => length (snd p)) vars)))).
      rewrite F in X. discriminate X. exists ss1, s, ss2. auto. }
    destruct ss as [|s0 ss'].
    + cbn in F. injection F as <-. assert (Z : asum (np_zeros (map (fun p => length (snd p)) vars)) = 0%Qc).
      { unfold np_zeros, np_full, asum, tabulate. cbn [data]. apply qsum_zero. reflexivity. }
      rewrite Z. cbn. split; [intros [= <-]; auto|]. intros [[-> _]|(ss1 & s & ss2 & E & _)]; [reflexivity|]. destruct ss1; discriminate.
    + assert (OK : forall s, In s (s0 :: ss') -> sample_ok vars s).
      { intros s I. remember (s0 :: ss') as ss. clear Heqss s0 ss'. apply cell_ok.
        assert (Z : forall a, foldM (fun a s => let* ix := cell vars s in Ok (aset a ix (aget a ix + 1)%Qc)) ss a = Ok c -> exists ix, cell vars s = Ok ix).
        { clear - I. induction ss as [|s1 ss IH]; [destruct I|]. intros a. cbn [foldM]. destruct (cell vars s1) as [ix|] eqn:C; cbn [rbind]; [|discriminate].
          destruct I as [<-|I]; [eauto|]. apply IH, I. }
        exact (Z _ F). }
      destruct (samples_named vars (s0 :: ss') ND NV ltac:(discriminate) OK) as (f & E & _). unfold from_samples in E. rewrite F in E. cbn [rbind] in E.
      destruct (qeqb (asum c) 0%Qc); [discriminate|]. split; [discriminate|]. intros [[_ X]|(ss1 & s & ss2 & X & H & B)]; [discriminate|]. destruct (NB e ss1 s ss2 X H B).
  - assert (X := proj1 (counting_err vars ss e' _) F). split.
    + intros [= <-]. auto.
    + intros [[-> E]|Y].
      * destruct X as (ss1 & s & ss2 & E2 & _). rewrite E in E2. destruct ss1; discriminate.
      * apply (counting_err vars ss e (np_zeros (map (fun p => length (snd p)) vars))) in Y. rewrite F in Y. congruence.
Qed.
