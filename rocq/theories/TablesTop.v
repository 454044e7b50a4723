(** Sizes of the tables of variable elimination: orders that fit the network. *)
From Verif Require Import Base BaseFacts NDArray NDArrayFacts SumCalc Factor FactorFacts Exact Spec SpecFacts VEProof SepSpec OrderSpec Order JoinTree TreeSpec OrderProof JTPolytree Tables TablesSpec TablesProof.

Section Size.
Context {SO : SetOrder}.
Variable b : bn.
Hypothesis WB : wf_bn b.
Notation dom := (values_of b).
Notation wf := (wf_factor dom).

Lemma size_entries h : wf h -> length (data (pot h)) = entries b (vorder h).
Proof. intros W. rewrite (wf_arr _ _ W), (wf_shape _ _ W). reflexivity. Qed.

Lemma prodn_mid l x r : prodn (l ++ x :: r) = x * prodn (l ++ r).
Proof. rewrite !prodn_app. cbn [prodn]. ring. Qed.

Lemma entries_incl K : (forall v, In v K -> dom v <> []) -> forall l, NoDup l -> incl l K -> entries b l <= entries b K.
Proof.
  intros POS l. revert K POS. unfold entries. induction l as [|v l IH]; intros K POS ND I; cbn [map prodn].
  - clear I. induction K as [|w K IHK]; cbn [map prodn]; [lia|].
    assert (H := POS w (or_introl eq_refl)). destruct (dom w); [congruence|]. cbn [length].
    specialize (IHK (fun u Hu => POS u (or_intror Hu))). lia.
  - destruct (in_split v K (I v (or_introl eq_refl))) as (k1 & k2 & ->).
    rewrite map_app. cbn [map]. rewrite prodn_mid, <- map_app. apply Nat.mul_le_mono_l, IH.
    + intros w Hw. apply POS. apply in_app_iff in Hw. apply in_app_iff. cbn. tauto.
    + now inversion ND.
    + intros w Hw. assert (N : w <> v) by (intros ->; now inversion ND).
      specialize (I w (or_intror Hw)). apply in_app_iff in I. apply in_app_iff. cbn in I. destruct I as [?|[?|?]]; [tauto|congruence|tauto].
Qed.

Lemma entries_perm l m : Permutation l m -> entries b l = entries b m.
Proof. unfold entries. induction 1; cbn [map prodn]; [reflexivity|congruence|ring|congruence]. Qed.

Lemma dom_some v : In v (bnames b) -> dom v <> [].
Proof.
  intros H. apply in_map_iff in H as (n & <- & Hn). rewrite (values_of_node b WB n Hn). apply (wb_nodes b WB n Hn).
Qed.

Lemma parent_in n p : In n (bnodes b) -> In p (map fst (dn_parents n)) -> In p (bnames b).
Proof.
  intros Hn Hp. apply in_map_iff in Hp as ((p' & vals) & <- & Hp). destruct (wn_pvals b n (wb_nodes b WB n Hn) p' vals Hp) as (m & Hm & <- & _).
  exact (in_map dn_name _ _ Hm).
Qed.

Lemma node_unique n m : In n (bnodes b) -> In m (bnodes b) -> dn_name n = dn_name m -> n = m.
Proof.
  intros Hn Hm E. assert (H := get_node_ok b WB n Hn). rewrite E, (get_node_ok b WB m Hm) in H. congruence.
Qed.

(** ** The naive algorithm *)
Lemma step_times ev f v h : snd (naive_step_log b ev f v) = Ok h -> In (Times h) (fst (naive_step_log b ev f v)).
Proof.
  unfold naive_step_log, lbind, quiet, given, times. cbn [fst snd].
  destruct (get_node b v) as [n|e]; cbn [fst snd]; [|discriminate].
  destruct (fmul f (from_node n)) as [f1|e]; cbn [fst snd]; [|discriminate].
  destruct (dget v ev) as [e|]; cbn [fst snd].
  - destruct (as_evidence v (dn_values n) e None) as [ef|er]; cbn [fst snd]; [|discriminate].
    destruct (fmul f1 ef) as [h'|er]; cbn [fst snd]; [|discriminate]. intros E. injection E as ->. repeat (apply in_app_iff; right). cbn. tauto.
  - intros E. injection E as ->. cbn. tauto.
Qed.

Lemma fold_times ev : forall l f h, l <> [] -> snd (lfold (naive_step_log b ev) l f) = Ok h -> In (Times h) (fst (lfold (naive_step_log b ev) l f)).
Proof.
  induction l as [|v l IH]; intros f h N E; [congruence|]. cbn [lfold] in *. unfold lbind in *.
  destruct (snd (naive_step_log b ev f v)) as [f1|e] eqn:E1; cbn [fst snd] in *; [|discriminate].
  apply in_app_iff. destruct l as [|w l].
  - left. cbn in E. injection E as ->. now apply step_times.
  - right. apply IH; [discriminate|exact E].
Qed.

Theorem naive_joint Q ev : ev_ok b ev -> bnodes b <> [] ->
  exists h, In (Times h) (fst (naive_log b Q ev)) /\ Permutation (vorder h) (bnames b) /\ length (data (pot h)) = entries b (bnames b).
Proof.
  intros EV NE.
  destruct (naive_fold b WB ev EV (bnodes b) (incl_refl _) (trivial 1%Qc) (wf_trivial _ _)) as (h & E & W & O & _).
  assert (P : Permutation (vorder h) (bnames b)).
  { apply NoDup_Permutation; [apply W|apply WB|]. intros v. rewrite O. split.
    - intros [[]|(n & Hn & Hv)]. destruct Hv as [<-|Hv]; [apply in_map, Hn|]. now apply (parent_in n).
    - intros Hv. apply in_map_iff in Hv as (n & <- & Hn). right. exists n. split; [exact Hn|now left]. }
  exists h. split; [|split; [exact P|rewrite size_entries by exact W; now apply entries_perm]].
  unfold naive_log. fold (map dn_name (bnodes b)). change (bnames b) with (map dn_name (bnodes b)).
  assert (X : snd (lfold (naive_step_log b ev) (map dn_name (bnodes b)) (trivial 1%Qc)) = Ok h).
  { rewrite <- E. apply snd_fold. intros. apply snd_naive_step. }
  unfold lbind at 1. rewrite X. cbn [fst]. apply in_app_iff. left. apply fold_times; [|exact X].
  destruct (bnodes b); [congruence|discriminate].
Qed.

(** ** Variable elimination, from the caller's order *)
Lemma fronts_perm Q o : NoDup Q -> incl Q (bnames b) -> Permutation (bnames b) o -> Permutation (bnames b) (fronts Q o ++ Q).
Proof.
  intros ND I P. assert (NDo : NoDup o) by (apply (Permutation_NoDup P), WB). rewrite P. apply NoDup_Permutation.
  - exact NDo.
  - apply NoDup_app_disj; [apply NoDup_filter, NDo|exact ND|].
    intros x H1 H2. apply filter_In in H1 as [_ H1]. apply negb_true_iff, mem_nIn in H1. contradiction.
  - intros v. unfold fronts. rewrite in_app_iff, filter_In, negb_true_iff, mem_nIn. split.
    + intros H. destruct (in_dec string_dec v Q); tauto.
    + intros [[H _]|H]; [exact H|]. apply (Permutation_in _ P), I, H.
Qed.

Theorem bucket_log_scopes Q ev o : ev_ok b ev -> incl (dkeys ev) (bnames b) -> NoDup Q -> incl Q (bnames b) -> Permutation (bnames b) o ->
  let l := fst (bucket_log b Q ev o) in
  map fst (sums l) = fronts Q o /\
  (forall v f, In (v, f) (sums l) -> exists o1 o2, fronts Q o = o1 ++ v :: o2 /\ forall u, In u (vorder f) <-> cluster b o1 v (o2 ++ Q) u) /\
  (forall e h, In e l -> In h (tables e) -> wf h /\
     ((exists o1 v o2, fronts Q o = o1 ++ v :: o2 /\ forall u, In u (vorder h) -> cluster b o1 v (o2 ++ Q) u) \/ incl (vorder h) Q)).
Proof.
  intros EV K ND I P. unfold bucket_log. rewrite move_to_end_spec; [|exact ND|apply (Permutation_NoDup P), WB|intros v Hv; apply (Permutation_in _ P), I, Hv].
  apply (bucket_scopes b WB Q ev (fronts Q o) EV K), fronts_perm; assumption.
Qed.

(** ** Orders that connect nothing new *)
Lemma related_interacts u v : related b u v -> u = v \/ interacts b u v.
Proof.
  intros (n & Hn & Hu & Hv). destruct (string_dec u v) as [->|N]; [now left|right]. split; [exact N|]. exists n. auto.
Qed.
Lemma interacts_sym u v : interacts b u v -> interacts b v u.
Proof. intros (N & n & Hn & H1 & H2). split; [congruence|]. exists n. auto. Qed.

Lemma perfect_through o : NoDup o -> perfect_order b o -> forall pre post, o = pre ++ post -> forall u v, In u post -> In v post ->
  through b pre u v -> u = v \/ interacts b u v.
Proof.
  intros ND PO. induction pre as [|x pre IH] using rev_ind; intros post E u v Hu Hv T.
  - destruct T as [u v R|u w v R [] _]. now apply related_interacts.
  - rewrite <- app_assoc in E. cbn [app] in E.
    destruct (through_split b pre x u v T) as [T'|[T1 T2]].
    + apply (IH (x :: post) E u v); [now right|now right|exact T'].
    + assert (NX : ~ In x post).
      { rewrite E in ND. apply NoDup_remove_2 in ND. intros H. apply ND, in_app_iff. now right. }
      destruct (IH (x :: post) E u x) as [->|A]; [now right|now left|exact T1|contradiction|].
      destruct (IH (x :: post) E x v) as [->|B]; [now left|now right|exact T2|contradiction|].
      destruct (string_dec u v) as [->|N]; [now left|right].
      apply (PO pre x post E); try assumption. now apply interacts_sym.
Qed.

Lemma filter_at {A} (P : A -> bool) : forall l a x c, filter P l = a ++ x :: c -> exists l1 l2, l = l1 ++ x :: l2 /\ filter P l1 = a /\ filter P l2 = c.
Proof.
  induction l as [|y l IH]; intros a x c E; [destruct a; discriminate|]. cbn [filter] in E. destruct (P y) eqn:Py.
  - destruct a as [|z a]; cbn [app] in E; injection E as E0 E.
    + subst. exists [], l. repeat split.
    + subst z. destruct (IH a x c E) as (l1 & l2 & -> & F). exists (y :: l1), l2. split; [reflexivity|]. cbn [filter]. rewrite Py. destruct F as [-> ->]. split; reflexivity.
  - destruct (IH a x c E) as (l1 & l2 & -> & F). exists (y :: l1), l2. split; [reflexivity|]. cbn [filter]. now rewrite Py.
Qed.

(** Query variables apart, what is joined with [v] are the later variables that share a family with it. *)
Theorem perfect_cluster Q o v o1 o2 : NoDup o -> perfect_order b o -> fronts Q o = o1 ++ v :: o2 ->
  exists pre post, o = pre ++ v :: post /\ forall u, cluster b o1 v (o2 ++ Q) u -> In u Q \/ u = v \/ In u post /\ interacts b v u.
Proof.
  intros ND PO E. destruct (filter_at _ _ _ _ _ E) as (pre & post & Eo & F1 & F2). exists pre, post. split; [exact Eo|].
  intros u [->|[Hu T]]; [tauto|]. apply in_app_iff in Hu as [Hu|Hu]; [|now left]. right.
  assert (Hp : In u post) by (rewrite <- F2 in Hu; now apply filter_In in Hu).
  destruct (perfect_through o ND PO pre (v :: post) Eo v u) as [<-|I]; [now left|now right| |now left|tauto].
  apply (through_mono b o1); [|exact T]. intros w Hw. rewrite <- F1 in Hw. now apply filter_In in Hw.
Qed.

(** ** Forests, children first *)
Lemma up_front Q o x a c n : upwards b o -> fronts Q o = a ++ x :: c -> In n (bnodes b) -> In x (map fst (dn_parents n)) -> In (dn_name n) Q \/ In (dn_name n) a.
Proof.
  intros U E Hn Hx. destruct (filter_at _ _ _ _ _ E) as (l1 & l2 & E1 & F & _). assert (H := U n x l1 l2 Hn Hx E1).
  destruct (in_dec string_dec (dn_name n) Q) as [i|i]; [now left|right]. rewrite <- F. apply filter_In. split; [exact H|]. now apply negb_true_iff, mem_nIn.
Qed.

(** Variables below [v] that were summed out before it. *)
Inductive below (v : string) (pre : list string) : string -> Prop :=
| below_self : below v pre v
| below_child n p : In n (bnodes b) -> In p (map fst (dn_parents n)) -> In (dn_name n) pre -> below v pre p -> below v pre (dn_name n).

Lemma one_parent n m p q : single_parent b -> In n (bnodes b) -> In m (bnodes b) -> dn_name n = dn_name m ->
  In p (map fst (dn_parents n)) -> In q (map fst (dn_parents m)) -> p = q.
Proof.
  intros SP Hn Hm E Hp Hq. assert (n = m) as <- by (eapply node_unique; eauto). specialize (SP n Hn).
  destruct (dn_parents n) as [|x [|y l]]; cbn in *; try tauto; try lia. destruct Hp as [<-|[]], Hq as [<-|[]]. reflexivity.
Qed.

Lemma step_cases n x w : single_parent b -> In n (bnodes b) -> In x (family n) -> In w (family n) ->
  w = x \/ (x = dn_name n /\ In w (map fst (dn_parents n))) \/ (w = dn_name n /\ In x (map fst (dn_parents n))).
Proof.
  intros SP Hn [<-|Hx] [<-|Hw]; auto. left. symmetry. now apply (one_parent n n).
Qed.

Theorem forest_cluster Q o o1 v o2 nv : single_parent b -> upwards b o -> NoDup (fronts Q o ++ Q) -> fronts Q o = o1 ++ v :: o2 ->
  In nv (bnodes b) -> dn_name nv = v -> forall u, cluster b o1 v (o2 ++ Q) u -> In u (family nv) \/ In u Q.
Proof.
  intros SP U ND E Hnv Env u [->|[Hu T]]; [left; left; exact Env|].
  assert (E' : fronts Q o ++ Q = o1 ++ v :: (o2 ++ Q)) by (rewrite E, <- app_assoc; reflexivity).
  rewrite E' in ND.
  assert (ND1 : forall w, In w o1 -> In w (v :: o2 ++ Q) -> False).
  { intros w H1 H2. clear -ND H1 H2. induction o1 as [|y l IH]; [destruct H1|]. cbn [app] in ND. apply NoDup_cons_iff in ND as [N ND]. destruct H1 as [->|H1]; [apply N, in_app_iff; now right|auto]. }
  assert (CH : forall n x, In n (bnodes b) -> In x (map fst (dn_parents n)) -> x = v \/ In x o1 -> In (dn_name n) Q \/ In (dn_name n) o1).
  { intros n x Hn Hx [->|Hx1]; [exact (up_front Q o v o1 o2 n U E Hn Hx)|].
    destruct (in_split x o1 Hx1) as (a & c & Ea). rewrite Ea, <- app_assoc in E. cbn [app] in E.
    destruct (up_front Q o x a _ n U E Hn Hx) as [H|H]; [now left|right]. rewrite Ea. apply in_app_iff. now left. }
  assert (BO : forall x, below v o1 x -> x = v \/ In x o1) by (intros x [|n p H1 H2 H3 _]; auto).
  assert (PB : forall n w, In n (bnodes b) -> In w (map fst (dn_parents n)) -> below v o1 (dn_name n) -> dn_name n <> v -> below v o1 w).
  { intros n w Hn Hw B N. remember (dn_name n) as x eqn:Ex. destruct B as [|m p Hm Hp Hi Bp]; [congruence|].
    now rewrite (one_parent n m w p SP Hn Hm (eq_sym Ex) Hw Hp). }
  assert (G : forall x y, through b o1 x y -> below v o1 x -> In y (o2 ++ Q) -> In y (family nv) \/ In y Q).
  { clear u Hu T. intros x y T. induction T as [x y (n & Hn & Hx & Hy)|x w y (n & Hn & Hx & Hw) Iw T IH]; intros B Iy.
    - destruct (step_cases n x y SP Hn Hx Hy) as [->|[[-> Hp]|[-> Hp]]].
      + destruct (BO x B) as [->|H]; [left; left; exact Env|]. exfalso. apply (ND1 x H). now right.
      + destruct (string_dec (dn_name n) v) as [Ev|N].
        * left. right. assert (n = nv) as -> by (eapply node_unique; eauto; congruence). exact Hp.
        * destruct (BO y (PB n y Hn Hp B N)) as [->|H]; [left; left; exact Env|]. exfalso. apply (ND1 y H). now right.
      + destruct (CH n x Hn Hp (BO x B)) as [H|H]; [now right|]. exfalso. apply (ND1 _ H). now right.
    - apply IH; [|exact Iy]. destruct (step_cases n x w SP Hn Hx Hw) as [->|[[-> Hp]|[-> Hp]]]; [exact B| |].
      + destruct (string_dec (dn_name n) v) as [Ev|N]; [|now apply (PB n w)].
        exfalso. destruct (in_split w o1 Iw) as (a & c & Ea). rewrite Ea, <- app_assoc in E. cbn [app] in E.
        destruct (up_front Q o w a _ n U E Hn Hp) as [H|H]; rewrite Ev in H.
        * apply NoDup_remove_2 in ND. apply ND, in_app_iff. right. apply in_app_iff. now right.
        * apply (ND1 v); [|now left]. rewrite Ea. apply in_app_iff. now left.
      + exact (below_child v o1 n x Hn Hp Iw B). }
  exact (G v u T (below_self v o1) Hu).
Qed.

(** ** The statements *)
Lemma in_sums v f : forall l, In (v, f) (sums l) -> exists g, In (Summed v f g) l.
Proof.
  induction l as [|e l IH]; [intros []|]. destruct e as [h|h|w h g]; cbn [sums]; try (intros H; destruct (IH H) as (g' & Hg); exists g'; now right).
  intros [H|H]; [injection H as -> ->; exists g; now left|destruct (IH H) as (g' & Hg); exists g'; now right].
Qed.

Section Top.
Variables (Q : list string) (ev : evidence) (o : list string).
Hypothesis EV : ev_ok b ev.
Hypothesis K : incl (dkeys ev) (bnames b).
Hypothesis NDQ : NoDup Q.
Hypothesis IQ : incl Q (bnames b).
Hypothesis P : Permutation (bnames b) o.
Let l := fst (bucket_log b Q ev o).

Lemma sums_top : map fst (sums l) = fronts Q o /\
  forall v f, In (v, f) (sums l) -> exists o1 o2, fronts Q o = o1 ++ v :: o2 /\ NoDup (vorder f) /\
    (forall u, In u (vorder f) <-> cluster b o1 v (o2 ++ Q) u) /\ length (data (pot f)) = entries b (vorder f).
Proof.
  destruct (bucket_log_scopes Q ev o EV K NDQ IQ P) as (S1 & S2 & S3). split; [exact S1|]. intros v f H.
  destruct (S2 v f H) as (o1 & o2 & E & C). destruct (in_sums v f _ H) as (g & Hg). destruct (S3 _ f Hg (or_introl eq_refl)) as [W _].
  exists o1, o2. split; [exact E|]. split; [apply W|]. split; [exact C|now apply size_entries].
Qed.

Lemma front_nodup : NoDup (fronts Q o).
Proof. apply NoDup_filter, (Permutation_NoDup P), WB. Qed.

Lemma mid_same (x : string) : forall l1 l2 m1 m2, NoDup (l1 ++ x :: l2) -> l1 ++ x :: l2 = m1 ++ x :: m2 -> l1 = m1 /\ l2 = m2.
Proof.
  induction l1 as [|y l1 IH]; intros l2 m1 m2 ND E; destruct m1 as [|z m1]; cbn [app] in *.
  - injection E as ->. auto.
  - exfalso. injection E as <- ->. apply NoDup_cons_iff in ND as [N _]. apply N, in_app_iff. right. now left.
  - exfalso. injection E as -> E. apply NoDup_cons_iff in ND as [N _]. apply N, in_app_iff. right. now left.
  - injection E as -> E. apply NoDup_cons_iff in ND as [_ ND]. destruct (IH l2 m1 m2 ND E) as [-> ->]. auto.
Qed.

Lemma summed_at o1 v o2 : fronts Q o = o1 ++ v :: o2 -> exists f, In (v, f) (sums l) /\ NoDup (vorder f) /\
  (forall u, In u (vorder f) <-> cluster b o1 v (o2 ++ Q) u) /\ length (data (pot f)) = entries b (vorder f).
Proof.
  intros E. destruct sums_top as [S1 S2]. assert (H : In v (map fst (sums l))) by (rewrite S1, E; apply in_app_iff; right; now left).
  apply in_map_iff in H as ((v' & f) & Ev & H). cbn in Ev. subst v'. destruct (S2 v f H) as (p1 & p2 & E' & N & C & L).
  assert (ND := front_nodup). rewrite E in ND, E'. destruct (mid_same v _ _ _ _ ND E') as [-> ->]. exists f. auto.
Qed.

Lemma tables_top' e h : In e l -> In h (tables e) -> wf h /\
  ((exists v f, In (v, f) (sums l) /\ incl (vorder h) (vorder f) /\ length (data (pot h)) <= length (data (pot f))) \/
   incl (vorder h) Q /\ length (data (pot h)) <= entries b Q).
Proof.
  intros He Hh. destruct (bucket_log_scopes Q ev o EV K NDQ IQ P) as (S1 & S2 & S3). destruct (S3 e h He Hh) as [W [(o1 & v & o2 & E & C)|I]]; (split; [exact W|]).
  - left. destruct (summed_at o1 v o2 E) as (f & Hf & N & Cf & L). exists v, f. split; [exact Hf|].
    assert (I : incl (vorder h) (vorder f)) by (intros u Hu; apply Cf, C, Hu). split; [exact I|].
    rewrite L, size_entries by exact W. apply entries_incl; [|apply W|exact I].
    intros u Hu. destruct (in_sums v f _ Hf) as (g & Hg). destruct (S3 _ f Hg (or_introl eq_refl)) as [Wf _].
    apply dom_some. apply Cf in Hu. assert (PQ := fronts_perm Q o NDQ IQ P).
    apply (Permutation_in _ (Permutation_sym PQ)). rewrite E, <- app_assoc. apply in_app_iff. right. cbn [app].
    destruct Hu as [->|[Hu _]]; [now left|now right].
  - right. split; [exact I|]. rewrite size_entries by exact W. apply entries_incl; [|apply W|exact I]. intros u Hu. apply dom_some, IQ, Hu.
Qed.

Lemma tables_top e h : In e l -> In h (tables e) ->
  (exists v f, In (v, f) (sums l) /\ incl (vorder h) (vorder f) /\ length (data (pot h)) <= length (data (pot f))) \/
   incl (vorder h) Q /\ length (data (pot h)) <= entries b Q.
Proof. intros He Hh. apply (tables_top' e h He Hh). Qed.

Lemma hub_top v rest : fronts Q o = v :: rest -> (forall u, In u (bnames b) -> related b v u) ->
  exists f, In (v, f) (sums l) /\ length (data (pot f)) = entries b (bnames b).
Proof.
  intros E R. destruct (summed_at [] v rest E) as (f & Hf & N & C & L). exists f. split; [exact Hf|]. rewrite L. apply entries_perm.
  assert (PQ := fronts_perm Q o NDQ IQ P). rewrite E in PQ.
  apply NoDup_Permutation; [exact N|apply WB|]. intros u. rewrite C. split.
  - intros H. apply (Permutation_in _ (Permutation_sym PQ)). destruct H as [->|[H _]]; [now left|now right].
  - intros Hu. destruct (Permutation_in _ PQ Hu) as [->|H]; [now left|right]. split; [exact H|]. apply through_one, R, Hu.
Qed.

Lemma perfect_top e h : perfect_order b o -> In e l -> In h (tables e) ->
  forall u w, In u (vorder h) -> In w (vorder h) -> ~ In u Q -> ~ In w Q -> u <> w -> interacts b u w.
Proof.
  intros PO He Hh u w Hu Hw Nu Nw N. destruct (bucket_log_scopes Q ev o EV K NDQ IQ P) as (_ & _ & S3).
  destruct (S3 e h He Hh) as [W [(o1 & v & o2 & E & C)|I]]; [|exfalso; apply Nu, I, Hu].
  destruct (perfect_cluster Q o v o1 o2 (Permutation_NoDup P (wb_names b WB)) PO E) as (pre & post & Eo & G).
  destruct (G u (C u Hu)) as [?|[->|[Iu Au]]]; [contradiction| |]; destruct (G w (C w Hw)) as [?|[->|[Iw Aw]]]; try contradiction; try congruence.
  - apply interacts_sym, Au.
  - now apply (PO pre v post Eo).
Qed.

Lemma family_bound n h : In n (bnodes b) -> wf h -> incl (vorder h) (family n ++ Q) -> length (data (pot h)) <= entries b (family n ++ Q).
Proof.
  intros Hn W I. rewrite size_entries by exact W. apply entries_incl; [|apply W|exact I]. intros u Hu. apply dom_some.
  apply in_app_iff in Hu as [[<-|Hu]|Hu]; [apply in_map, Hn|now apply (parent_in n)|apply IQ, Hu].
Qed.

Lemma family_top e h : bnodes b <> [] ->
  (forall o1 v o2, fronts Q o = o1 ++ v :: o2 -> exists n, In n (bnodes b) /\ forall u, cluster b o1 v (o2 ++ Q) u -> In u (family n) \/ In u Q) ->
  In e l -> In h (tables e) -> exists n, In n (bnodes b) /\ incl (vorder h) (family n ++ Q) /\ length (data (pot h)) <= entries b (family n ++ Q).
Proof.
  intros NE G He Hh. destruct (bucket_log_scopes Q ev o EV K NDQ IQ P) as (_ & _ & S3).
  destruct (S3 e h He Hh) as [W [(o1 & v & o2 & E & C)|I]].
  - destruct (G o1 v o2 E) as (n & Hn & Gn). exists n. split; [exact Hn|].
    assert (I : incl (vorder h) (family n ++ Q)) by (intros u Hu; apply in_app_iff, Gn, C, Hu). split; [exact I|now apply family_bound].
  - destruct (bnodes b) as [|n ns] eqn:EB; [congruence|]. exists n. split; [now left|].
    assert (J : incl (vorder h) (family n ++ Q)) by (intros u Hu; apply in_app_iff; right; apply I, Hu). split; [exact J|].
    apply family_bound; [rewrite EB; now left|exact W|exact J].
Qed.

Lemma forest_top e h : single_parent b -> upwards b o -> bnodes b <> [] -> In e l -> In h (tables e) ->
  exists n, In n (bnodes b) /\ incl (vorder h) (family n ++ Q) /\ length (data (pot h)) <= entries b (family n ++ Q).
Proof.
  intros SP U NE. apply family_top; [exact NE|]. intros o1 v o2 E. assert (PQ := fronts_perm Q o NDQ IQ P).
  assert (Hv : In v (bnames b)) by (apply (Permutation_in _ (Permutation_sym PQ)); rewrite E, <- app_assoc; apply in_app_iff; right; now left).
  apply in_map_iff in Hv as (n & En & Hn). exists n. split; [exact Hn|]. intros u.
  exact (forest_cluster Q o o1 v o2 n SP U (Permutation_NoDup PQ (wb_names b WB)) E Hn En u).
Qed.
End Top.

Theorem default_top Q ev : wf_graph b -> edges_match b -> polytree b -> ev_ok b ev -> incl (dkeys ev) (bnames b) -> NoDup Q -> incl Q (bnames b) -> bnodes b <> [] ->
  exists o, order_or_default b None = Ok o /\ forall e h, In e (fst (bucket_log b Q ev o)) -> In h (tables e) ->
    exists n, In n (bnodes b) /\ incl (vorder h) (family n ++ Q) /\ length (data (pot h)) <= entries b (family n ++ Q).
Proof.
  intros WG EM PT EV K ND I NE. destruct (min_degree_greedy b WG) as (o & E & P & G). exists o. split; [exact E|]. intros e h.
  apply family_top; try assumption. intros o1 v o2 Ef.
  destruct (perfect_cluster Q o v o1 o2 (Permutation_NoDup P (wb_names b WB)) (poly_perfect b WB WG EM PT o P G) Ef) as (pre & post & Eo & C).
  destruct (poly_family b WB WG EM PT o P G pre v post Eo) as (n & Hn & F). exists n. split; [exact Hn|].
  intros u Hu. destruct (C u Hu) as [H|H]; [now right|left]. apply F, H.
Qed.
End Size.
