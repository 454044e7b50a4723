(** From named states to index assignments: the reference semantics of Spec.v in
    terms of [sum_over]. *)
From Verif Require Import Base BaseFacts NDArray NDArrayFacts SumCalc Factor FactorFacts Exact Spec.

Lemma position_idx x l : position x l = idx x l.
Proof. reflexivity. Qed.

(** ** State enumeration *)

Definition state_of (vars : list (string * list string)) (a : asg) : dict string :=
  map (fun p => (fst p, nth (a (fst p)) (snd p) "")) vars.

Definition cardv (vars : list (string * list string)) (v : string) : nat :=
  match dget v vars with Some l => length l | None => 0 end.

Lemma qsum_list_nth {A} (l : list A) d (W : A -> Qc) :
  qsum (map W l) = bigsum (length l) (fun i => W (nth i l d)).
Proof.
  induction l as [|x l IH]; [reflexivity|].
  change (length (x :: l)) with (S (length l)). rewrite bigsum_S. cbn. rewrite IH. reflexivity.
Qed.

Lemma states_sum (card : string -> nat) vars : NoDup (map fst vars) ->
  (forall v l, In (v, l) vars -> card v = length l) -> forall W a,
  qsum (map W (states vars)) = sum_over card (map fst vars) (fun a => W (state_of vars a)) a.
Proof.
  induction vars as [|[v vals] vars IH]; intros ND C W a; cbn -[state_of].
  - cbn. ring.
  - inversion ND as [|? ? Nv ND']; subst.
    rewrite qsum_flat_map, (qsum_list_nth vals "").
    rewrite <- (C v vals) by (left; reflexivity). apply bigsum_ext. intros i Hi.
    rewrite map_map. rewrite (IH ND') with (a := upd a v i).
    + apply sum_over_ext_in. intros b _ Eb. cbn. rewrite (Eb v Nv), upd_eq. reflexivity.
    + intros w l H; apply C; right; exact H.
Qed.

Lemma dget_state_of vars a v l : NoDup (map fst vars) -> In (v, l) vars ->
  dget v (state_of vars a) = Some (nth (a v) l "").
Proof.
  intros ND H. apply In_dget.
  - unfold dkeys, state_of. rewrite map_map. cbn. exact ND.
  - unfold state_of. apply in_map_iff. exists (v, l). split; [reflexivity|exact H].
Qed.

Lemma look_state_of vars a v l : NoDup (map fst vars) -> In (v, l) vars ->
  look (state_of vars a) v = nth (a v) l "".
Proof. intros ND H. unfold look. rewrite (dget_state_of vars a v l ND H). reflexivity. Qed.

(** ** Well-formed networks *)

Section Net.
Variable b : bn.
Hypothesis WB : wf_bn b.
Notation dom := (values_of b).
Notation card := (card dom).

Lemma find_node v n : In n (bnodes b) -> dn_name n = v ->
  find (fun n => String.eqb v (dn_name n)) (bnodes b) = Some n.
Proof.
  intros H E. assert (ND := wb_names _ WB). unfold bnames in ND. clear WB.
  revert ND H. generalize (bnodes b). intros l. induction l as [|m l IH]; cbn; intros ND H; [tauto|].
  inversion ND; subst. destruct H as [->|H].
  - rewrite String.eqb_refl; reflexivity.
  - rewrite eqb_neq_s; [apply IH; assumption|]. intros X. apply H2. rewrite <- X. apply in_map, H.
Qed.

Lemma values_of_node n : In n (bnodes b) -> dom (dn_name n) = dn_values n.
Proof. intros H. unfold values_of. rewrite (find_node _ n H eq_refl). reflexivity. Qed.

Lemma get_node_ok n : In n (bnodes b) -> get_node b (dn_name n) = Ok n.
Proof. intros H. unfold get_node. rewrite (find_node _ n H eq_refl). reflexivity. Qed.

Lemma in_bnames v : In v (bnames b) -> exists n, In n (bnodes b) /\ dn_name n = v.
Proof. intros H. apply in_map_iff in H as (n & E & H). eauto. Qed.

Lemma bnames_bvars : map fst (bvars b) = bnames b.
Proof. unfold bvars, bnames. rewrite map_map. reflexivity. Qed.

Lemma in_bvars v l : In (v, l) (bvars b) -> dom v = l /\ In v (bnames b).
Proof.
  intros H. apply in_map_iff in H as (n & E & H). inversion E; subst. split; [apply values_of_node, H|].
  apply in_map, H.
Qed.

Lemma bvars_in v : In v (bnames b) -> In (v, dom v) (bvars b).
Proof.
  intros H. apply in_bnames in H as (n & H & <-). rewrite values_of_node by exact H.
  unfold bvars. apply in_map_iff. exists n; auto.
Qed.

Lemma parent_dom n p vals : In n (bnodes b) -> In (p, vals) (dn_parents n) ->
  dom p = vals /\ In p (bnames b).
Proof.
  intros H I. destruct (wn_pvals _ _ (wb_nodes _ WB n H) p vals I) as (m & Hm & E1 & E2).
  subst. split; [apply values_of_node, Hm|]. apply in_map, Hm.
Qed.

(** The factor of a node. *)
Lemma fold_dset_vals (l : list (string * list string)) d :
  NoDup (map fst l) -> (forall v, In v (map fst l) -> ~ In v (dkeys d)) ->
  fold_left (fun d p => dset (fst p) (snd p) d) l d = d ++ l.
Proof.
  revert d; induction l as [|[v vals] l IH]; cbn; intros d ND D; [rewrite app_nil_r; reflexivity|].
  inversion ND; subst. assert (E : dset v vals d = d ++ [(v, vals)]).
  { assert (N : ~ In v (dkeys d)) by (apply D; left; reflexivity). clear - N.
    induction d as [|[k x] d IH]; cbn; [reflexivity|]. cbn in N.
    rewrite eqb_neq_s by (intros ->; tauto). rewrite IH; tauto. }
  rewrite E, IH.
  - rewrite <- app_assoc. reflexivity.
  - assumption.
  - intros w Hw. unfold dkeys. rewrite map_app, in_app_iff. cbn. intros [X|[X|[]]].
    + apply (D w); [right; exact Hw|exact X]. + subst; contradiction.
Qed.

Lemma from_node_fvals n : In n (bnodes b) ->
  fvals (from_node n) = (dn_name n, dn_values n) :: dn_parents n.
Proof.
  intros H. unfold from_node; cbn [fvals]. assert (ND := wn_parents _ _ (wb_nodes _ WB n H)).
  inversion ND; subst. rewrite fold_dset_vals; [reflexivity|assumption|].
  intros v Hv [E|[]]. cbn in E. subst; contradiction.
Qed.

Lemma wf_from_node n : In n (bnodes b) -> wf_factor dom (from_node n).
Proof.
  intros H. assert (W := wb_nodes _ WB n H). assert (F := from_node_fvals n H).
  assert (V : forall v l, In (v, l) ((dn_name n, dn_values n) :: dn_parents n) -> dom v = l).
  { intros v l [E|I]; [inversion E; subst; apply values_of_node, H|]. eapply parent_dom; eassumption. }
  split.
  - apply W.
  - cbn. rewrite (wn_shape _ _ W). cbn. f_equal.
    + unfold FactorFacts.card. rewrite values_of_node by exact H; reflexivity.
    + rewrite map_map. apply map_ext_in. intros [p l] Hp. unfold FactorFacts.card. cbn.
      rewrite (V p l) by (right; exact Hp); reflexivity.
  - exact (wn_arr _ _ W).
  - rewrite F. cbn. apply W.
  - intros v. rewrite F. cbn. tauto.
  - intros v Hv. rewrite F. cbn [vorder from_node] in Hv.
    assert (K : In v (dkeys ((dn_name n, dn_values n) :: dn_parents n))) by exact Hv.
    destruct (dget_key v _ K) as [l El]. rewrite El. f_equal. symmetry. apply V, dget_In, El.
Qed.

Lemma from_node_scope n v : In n (bnodes b) -> In v (vorder (from_node n)) -> In v (bnames b).
Proof.
  intros H [<-|Hv]; [apply in_map, H|]. apply in_map_iff in Hv as ([p l] & <- & Hp).
  eapply parent_dom; eassumption.
Qed.

(** The index form of weights. *)
Definition ievw (ev : evidence) (n : dnode) (a : asg) : Qc :=
  match dget (dn_name n) ev with
  | None => 1%Qc
  | Some (Hard x) => if Nat.eqb (a (dn_name n)) (idx x (dn_values n)) then 1%Qc else 0%Qc
  | Some (Soft q) => nth (a (dn_name n)) q 0%Qc
  end.

Definition iweight (ev : evidence) (a : asg) : Qc :=
  qprod (map (fun n => feval (from_node n) a * ievw ev n a)%Qc (bnodes b)).

Lemma ievw_deps ev n : deps [dn_name n] (ievw ev n).
Proof.
  intros a a' E. unfold ievw. rewrite (E (dn_name n)) by (left; reflexivity). reflexivity.
Qed.

Lemma qprod_map_deps {A} S (F : A -> asg -> Qc) l :
  (forall x, In x l -> deps S (F x)) -> deps S (fun a => qprod (map (fun x => F x a) l)).
Proof.
  intros H a a' E. induction l as [|x l IH]; cbn; [reflexivity|].
  rewrite (H x (or_introl eq_refl) a a' E), IH; [reflexivity|].
  intros y Hy; apply H; right; exact Hy.
Qed.

Lemma iweight_deps ev : deps (bnames b) (iweight ev).
Proof.
  unfold iweight. apply (qprod_map_deps (bnames b) (fun n a => feval (from_node n) a * ievw ev n a)%Qc).
  intros n Hn a a' E. f_equal.
  - apply feval_deps. intros v Hv. apply E. eapply from_node_scope; eassumption.
  - apply ievw_deps. intros v [<-|[]]. apply E. apply in_map, Hn.
Qed.

Lemma iweight_ext ev : ext (iweight ev).
Proof. eapply deps_ext, iweight_deps. Qed.

Lemma ev_hard ev v x : ev_ok b ev -> dget v ev = Some (Hard x) -> In v (bnames b) -> In x (dom v).
Proof. intros [_ H] E I. apply dget_In in E. apply (H v (Hard x) E I). Qed.

Lemma ev_soft ev v q : ev_ok b ev -> dget v ev = Some (Soft q) -> In v (bnames b) ->
  length q = length (dom v) /\ Forall (fun x => (0 <= x)%Qc) q.
Proof. intros [_ H] E I. apply dget_In in E. apply (H v (Soft q) E I). Qed.

Lemma entry_state n a : In n (bnodes b) -> inrange card (bnames b) a ->
  entry n (state_of (bvars b) a) = feval (from_node n) a.
Proof.
  intros H R. unfold entry, feval. cbn [pot from_node vorder]. f_equal.
  assert (V : forall v l, In (v, l) ((dn_name n, dn_values n) :: dn_parents n) ->
     In v (bnames b) /\ dom v = l /\ NoDup l).
  { intros v l [E|I].
    - inversion E; subst. split; [apply in_map, H|]. split; [apply values_of_node, H|].
      apply (wb_nodes _ WB n H).
    - destruct (parent_dom n v l H I) as [E1 E2]. split; [exact E2|]. split; [exact E1|].
      apply in_bnames in E2 as (m & Hm & <-). rewrite values_of_node in E1 by exact Hm. subst.
      apply (wb_nodes _ WB m Hm). }
  change (dn_name n :: map fst (dn_parents n)) with (map fst ((dn_name n, dn_values n) :: dn_parents n)).
  rewrite map_map. apply map_ext_in. intros [v l] I. cbn [fst snd].
  destruct (V v l I) as (E1 & E2 & E3).
  rewrite (look_state_of (bvars b) a v (dom v)); [|rewrite bnames_bvars; apply WB|apply bvars_in, E1].
  rewrite E2, position_idx. apply idx_nth; [exact E3|]. rewrite <- E2. apply R, E1.
Qed.

Lemma evw_state ev n a : In n (bnodes b) -> inrange card (bnames b) a -> ev_ok b ev ->
  evidence_weight ev n (state_of (bvars b) a) = ievw ev n a.
Proof.
  intros H R EV. unfold evidence_weight, ievw.
  assert (In_n : In (dn_name n) (bnames b)) by (apply in_map, H).
  assert (L : look (state_of (bvars b) a) (dn_name n) = nth (a (dn_name n)) (dn_values n) "").
  { rewrite <- (values_of_node n H). apply look_state_of; [rewrite bnames_bvars; apply WB|].
    apply bvars_in, In_n. }
  assert (Ra := R _ In_n). unfold FactorFacts.card in Ra. rewrite values_of_node in Ra by exact H.
  assert (ND : NoDup (dn_values n)) by apply (wb_nodes _ WB n H).
  destruct (dget (dn_name n) ev) as [[x|q]|] eqn:E; [| |reflexivity].
  - rewrite L. apply (ev_hard ev _ x EV) in E; [|exact In_n]. rewrite values_of_node in E by exact H.
    destruct (Nat.eqb_spec (a (dn_name n)) (idx x (dn_values n))) as [E1|N1].
    + rewrite E1, nth_idx by exact E. rewrite String.eqb_refl. reflexivity.
    + rewrite eqb_neq_s; [reflexivity|]. intros X. apply N1. rewrite <- X. symmetry.
      apply idx_nth; assumption.
  - rewrite L, position_idx, idx_nth by assumption. reflexivity.
Qed.

Lemma qprod_mult {A} (f g : A -> Qc) l :
  qprod (map (fun x => f x * g x)%Qc l) = (qprod (map f l) * qprod (map g l))%Qc.
Proof. induction l as [|x l IH]; cbn; [ring|]. rewrite IH; ring. Qed.

Lemma qprod_map_ext {A} (f g : A -> Qc) l : (forall x, In x l -> f x = g x) ->
  qprod (map f l) = qprod (map g l).
Proof. intros H. rewrite (map_ext_in f g l H). reflexivity. Qed.

Lemma weight_state ev a : inrange card (bnames b) a -> ev_ok b ev ->
  weight b ev (state_of (bvars b) a) = iweight ev a.
Proof.
  intros R EV. unfold weight, joint, iweight. rewrite qprod_mult. f_equal; apply qprod_map_ext; intros n H.
  - apply entry_state; assumption.
  - apply evw_state; assumption.
Qed.

(** ** Masses as sums over the remaining variables *)

Lemma qsum_filter {A} (P : A -> bool) (W : A -> Qc) l :
  qsum (map W (filter P l)) = qsum (map (fun s => if P s then W s else 0%Qc) l).
Proof.
  induction l as [|x l IH]; cbn; [reflexivity|]. destruct (P x); cbn; rewrite IH; ring.
Qed.

(** The assignment a partial instantiation describes. *)
Definition asg_q (q : dict string) : asg := fun v => idx (look q v) (dom v).

Lemma asg_q_range vs q : is_inst b vs q -> inrange card vs (asg_q q).
Proof.
  intros (ND & K & V) v Hv. unfold asg_q, FactorFacts.card. apply idx_lt.
  apply K in Hv. destruct (dget_key v q Hv) as [x Ex]. unfold look. rewrite Ex.
  apply V. apply dget_In, Ex.
Qed.

(** A function that vanishes unless [b v = a v] on [vs]. *)
Lemma sum_over_point (c : string -> nat) vs F a : ext F -> NoDup vs -> inrange c vs a ->
  (forall x, inrange c vs x -> (exists v, In v vs /\ x v <> a v) -> F x = 0%Qc) ->
  sum_over c vs F a = F a.
Proof.
  intros X ND. revert F X. induction ND as [|v vs Nv ND IH]; intros F X R H; cbn; [reflexivity|].
  rewrite (bigsum_single _ _ (a v)).
  - transitivity (sum_over c vs F a).
    + apply sum_over_ext_asg; [exact X|]. intros w; unfold upd. 
      destruct (String.eqb_spec w v) as [->|]; reflexivity.
    + rewrite (sum_over_ext_in c vs F (fun x => F (upd x v (a v)))).
      2: { intros y Ry Ey. apply X. intros w; unfold upd.
           destruct (String.eqb_spec w v) as [->|]; [apply Ey, Nv|reflexivity]. }
      rewrite IH.
      * apply X. intros w; unfold upd. destruct (String.eqb_spec w v) as [->|]; reflexivity.
      * intros y z E. apply X. intros w; unfold upd. rewrite E; reflexivity.
      * intros w Hw; apply R; right; exact Hw.
      * intros y Ry (w & Hw & Nw). apply H.
        -- intros u [<-|Hu]; [rewrite upd_eq; apply R; left; reflexivity|].
           rewrite upd_neq by (intros ->; contradiction). apply Ry, Hu.
        -- exists w. split; [right; exact Hw|]. rewrite upd_neq by (intros ->; contradiction). exact Nw.
  - apply R; left; reflexivity.
  - intros i Hi Ni. apply sum_over_zero. intros y Ry Ey. apply H.
    + intros w [<-|Hw]; [rewrite (Ey _ Nv), upd_eq; exact Hi|apply Ry, Hw].
    + exists v. split; [left; reflexivity|]. rewrite (Ey _ Nv), upd_eq. exact Ni.
Qed.

(** Remaining variables. *)
Definition others (vs : list string) : list string := filter (fun v => negb (mem v vs)) (bnames b).

Lemma others_In vs v : In v (others vs) <-> In v (bnames b) /\ ~ In v vs.
Proof.
  unfold others. rewrite filter_In, negb_true_iff, mem_nIn. tauto.
Qed.

Lemma others_split vs : NoDup vs -> incl vs (bnames b) -> Permutation (bnames b) (vs ++ others vs).
Proof.
  intros ND I. apply NoDup_Permutation.
  - apply WB.
  - apply NoDup_app_disj; [exact ND|apply NoDup_filter, WB|].
    intros x H1 H2. apply others_In in H2. tauto.
  - intros x. rewrite in_app_iff, others_In. destruct (In_dec_s x vs) as [H|H]; [|tauto].
    split; [tauto|intros _]. apply I, H.
Qed.

Definition agree_ix (q : dict string) (a : asg) : bool :=
  forallb (fun v => Nat.eqb (a v) (asg_q q v)) (dkeys q).


Lemma forallb_map_fst {A B} (f : A * B -> bool) (g : A -> bool) l :
  (forall x, In x l -> f x = g (fst x)) -> forallb f l = forallb g (map fst l).
Proof.
  induction l as [|x l IH]; cbn; intros H; [reflexivity|].
  rewrite H by (left; reflexivity). rewrite IH; [reflexivity|]. intros y Hy; apply H; right; exact Hy.
Qed.

Lemma agrees_state q a vs : is_inst b vs q -> incl vs (bnames b) -> inrange card (bnames b) a ->
  agrees q (state_of (bvars b) a) = agree_ix q a.
Proof.
  intros (ND & K & V) I R. unfold agrees, agree_ix, dkeys.
  apply forallb_map_fst. intros [v x] H. cbn [fst snd]. assert (Hv : In v (bnames b)).
  { apply I, K. apply (in_map fst) in H. exact H. }
  rewrite (look_state_of (bvars b) a v (dom v)); [|rewrite bnames_bvars; apply WB|apply bvars_in, Hv].
  assert (E : asg_q q v = idx x (dom v)).
  { unfold asg_q, look. rewrite (In_dget v x q ND H). reflexivity. }
  rewrite E. assert (Hx := V v x H). assert (Ra := R v Hv). unfold FactorFacts.card in Ra.
  assert (NDv : NoDup (dom v)).
  { apply in_bnames in Hv as (n & Hn & <-). rewrite values_of_node by exact Hn. apply (wb_nodes _ WB n Hn). }
  destruct (Nat.eqb_spec (a v) (idx x (dom v))) as [E1|N1].
  - rewrite E1, nth_idx by exact Hx. apply String.eqb_refl.
  - apply eqb_neq_s. intros X. apply N1. rewrite <- X. symmetry. apply idx_nth; assumption.
Qed.

Lemma mass_sum_gen (W : dict string -> Qc) (G : asg -> Qc) q vs :
  is_inst b vs q -> NoDup vs -> incl vs (bnames b) ->
  (forall a, inrange card (bnames b) a -> W (state_of (bvars b) a) = G a) -> ext G ->
  qsum (map W (filter (agrees q) (states (bvars b)))) = sum_over card (others vs) G (asg_q q).
Proof.
  intros HI ND I HW X. rewrite qsum_filter.
  rewrite (states_sum card (bvars b)) with (a := asg_q q).
  2: { rewrite bnames_bvars; apply WB. }
  2: { intros v l H. apply in_bvars in H as [<- _]. reflexivity. }
  rewrite bnames_bvars.
  rewrite (sum_over_ext_in card _ _ (fun a => if agree_ix q a then G a else 0%Qc)).
  2: { intros a R _. rewrite (agrees_state q a vs HI I R). rewrite (HW a R). reflexivity. }
  assert (X' : ext (fun a => if agree_ix q a then G a else 0%Qc)).
  { intros a a' E. rewrite (X a a' E). replace (agree_ix q a') with (agree_ix q a); [reflexivity|].
    unfold agree_ix. induction (dkeys q) as [|v l IH]; cbn; [reflexivity|]. rewrite E, IH. reflexivity. }
  rewrite (sum_over_perm card _ _ _ X' (others_split vs ND I)), sum_over_app.
  assert (HI' := HI). destruct HI as (NDq & K & V).
  assert (DA : forall a a', (forall v, In v vs -> a v = a' v) -> agree_ix q a = agree_ix q a').
  { intros a a' E. unfold agree_ix.
    assert (Y : forall l, incl l (dkeys q) -> forallb (fun v => Nat.eqb (a v) (asg_q q v)) l =
       forallb (fun v => Nat.eqb (a' v) (asg_q q v)) l).
    { induction l as [|v l IH]; cbn; intros Il; [reflexivity|]. rewrite IH.
      - rewrite (E v); [reflexivity|]. apply K, Il; left; reflexivity.
      - intros w Hw; apply Il; right; exact Hw. }
    apply Y, incl_refl. }
  rewrite sum_over_point.
  - apply sum_over_ext_in. intros a R E. replace (agree_ix q a) with true; [reflexivity|].
    symmetry. rewrite (DA a (asg_q q)).
    + unfold agree_ix. apply forallb_forall. intros v _. apply Nat.eqb_refl.
    + intros v Hv. apply E. rewrite others_In. tauto.
  - apply sum_over_ext_asg, X'.
  - exact ND.
  - apply asg_q_range, HI'.
  - intros a R (v & Hv & N). apply sum_over_zero. intros a' R' E'.
    replace (agree_ix q a') with false; [reflexivity|]. symmetry.
    rewrite (DA a' a).
    + unfold agree_ix. apply not_true_iff_false. rewrite forallb_forall. intros F.
      apply N. apply K in Hv. apply F in Hv. apply Nat.eqb_eq in Hv. exact Hv.
    + intros w Hw. apply E'. rewrite others_In; tauto.
Qed.

Lemma mass_sum ev q vs : ev_ok b ev -> is_inst b vs q -> NoDup vs -> incl vs (bnames b) ->
  mass b ev q = sum_over card (others vs) (iweight ev) (asg_q q).
Proof.
  intros EV HI ND I. unfold mass. apply mass_sum_gen; try assumption.
  - intros a R. apply weight_state; assumption. - apply iweight_ext.
Qed.

Lemma is_inst_nil : is_inst b [] [].
Proof. split; [constructor|]. split; [cbn; tauto|]. intros v x []. Qed.

Lemma others_nil : others [] = bnames b.
Proof.
  unfold others. induction (bnames b) as [|v l IH]; cbn; [reflexivity|]. f_equal; exact IH.
Qed.

Lemma mass_total ev a : ev_ok b ev -> mass b ev [] = sum_over card (bnames b) (iweight ev) a.
Proof.
  intros EV. rewrite (mass_sum ev [] [] EV is_inst_nil).
  - rewrite others_nil. apply (sum_over_deps card (bnames b)); [apply iweight_deps|tauto].
  - constructor. - intros v [].
Qed.

(** Non-negativity. *)
Lemma nth_Forall_nonneg l i : Forall (fun x => (0 <= x)%Qc) l -> (0 <= nth i l 0%Qc)%Qc.
Proof.
  intros H. destruct (Nat.lt_ge_cases i (length l)) as [L|L].
  - rewrite Forall_forall in H. apply H, nth_In, L.
  - rewrite nth_overflow by exact L. apply Qcle_refl.
Qed.

Lemma iweight_nonneg ev a : nonneg_bn b -> ev_ok b ev -> (0 <= iweight ev a)%Qc.
Proof.
  intros N EV. unfold iweight. apply qprod_nonneg. apply Forall_forall. intros x Hx.
  apply in_map_iff in Hx as (n & <- & Hn). apply Qcmult_nonneg.
  - unfold feval, aget. apply nth_Forall_nonneg. apply N, Hn.
  - unfold ievw. destruct (dget (dn_name n) ev) as [[y|q]|] eqn:E.
    + destruct (Nat.eqb _ _); discriminate.
    + apply nth_Forall_nonneg. eapply ev_soft; [exact EV|exact E|apply in_map, Hn].
    + discriminate.
Qed.

Lemma mass_nonneg ev q : nonneg_bn b -> ev_ok b ev -> (0 <= mass b ev q)%Qc.
Proof.
  intros N EV. unfold mass. rewrite qsum_filter.
  rewrite (states_sum card (bvars b)) with (a := fun _ => 0).
  2: { rewrite bnames_bvars; apply WB. }
  2: { intros v l H. apply in_bvars in H as [<- _]. reflexivity. }
  apply sum_over_nonneg. intros a R _. rewrite bnames_bvars in R.
  destruct (agrees q _); [|apply Qcle_refl]. rewrite weight_state by assumption.
  apply iweight_nonneg; assumption.
Qed.

(** ** From factors to reports *)

Lemma potential_at_feval f q : wf_factor dom f -> potential_at f q = feval f (asg_q q).
Proof.
  intros W. unfold potential_at, feval. f_equal. apply map_ext_in. intros v Hv.
  rewrite (wf_vals _ _ W v Hv). reflexivity.
Qed.

Lemma reports_intro f vs P : wf_factor dom f -> (forall v, In v (vorder f) <-> In v vs) ->
  (forall q, is_inst b vs q -> feval f (asg_q q) = P q) -> reports b f vs P.
Proof.
  intros W O H. split; [apply W|]. split; [exact O|]. split; [apply W|]. split; [apply W|].
  split; [apply W|]. split; [apply W|]. intros q Hq. rewrite (potential_at_feval f q W).
  apply H, Hq.
Qed.

(** Any assignment in range is described by an instantiation. *)
Definition inst_of (vs : list string) (a : asg) : dict string :=
  map (fun v => (v, nth (a v) (dom v) "")) vs.

Lemma inst_of_inst vs a : NoDup vs -> incl vs (bnames b) -> inrange card vs a ->
  is_inst b vs (inst_of vs a) /\ forall v, In v vs -> asg_q (inst_of vs a) v = a v.
Proof.
  intros ND I R. assert (K : dkeys (inst_of vs a) = vs).
  { unfold dkeys, inst_of. rewrite map_map. cbn. apply map_id. }
  assert (G : forall v, In v vs -> dget v (inst_of vs a) = Some (nth (a v) (dom v) "")).
  { intros v Hv. apply In_dget; [rewrite K; exact ND|]. apply in_map_iff. exists v; auto. }
  split.
  - split; [rewrite K; exact ND|]. split; [rewrite K; tauto|]. intros v x H.
    unfold inst_of in H. apply in_map_iff in H as (w & E & Hw). inversion E; subst.
    apply nth_In. apply R, Hw.
  - intros v Hv. unfold asg_q, look. rewrite (G v Hv). apply idx_nth; [|apply R, Hv].
    apply I in Hv. apply in_bnames in Hv as (n & Hn & <-). rewrite values_of_node by exact Hn.
    apply (wb_nodes _ WB n Hn).
Qed.

(** Normalising a table of masses gives the posterior. *)
Lemma normalize_posterior ev f vs : nonneg_bn b -> ev_ok b ev -> NoDup vs -> incl vs (bnames b) ->
  wf_factor dom f -> (forall v, In v (vorder f) <-> In v vs) ->
  (forall a, inrange card vs a -> feval f a = sum_over card (others vs) (iweight ev) a) ->
  reports b (normalize f) vs (posterior b ev).
Proof.
  intros NN EV ND I W O V.
  destruct (normalize_spec dom f W) as (W' & O' & _ & V').
  assert (T : ftotal dom f = mass b ev []).
  { unfold ftotal. rewrite (mass_total ev (fun _ => 0) EV).
    rewrite (sum_over_perm card _ _ _ (iweight_ext ev) (others_split vs ND I)), sum_over_app.
    assert (P : Permutation (vorder f) vs) by (apply NoDup_Permutation; [apply W|exact ND|exact O]).
    rewrite (sum_over_perm card _ _ _ (feval_ext f) P).
    apply sum_over_ext_in. intros a R _. apply V, R. }
  apply reports_intro; [exact W'|rewrite O'; exact O|]. intros q Hq.
  assert (R : inrange card vs (asg_q q)) by (apply asg_q_range, Hq).
  rewrite V' by (intros v Hv; apply R, O, Hv). rewrite T, (V _ R), <- (mass_sum ev q vs EV Hq ND I).
  unfold posterior. assert (M := mass_nonneg ev [] NN EV).
  destruct (qeqb (mass b ev []) 0%Qc) eqn:Z.
  - apply qeqb_true in Z. rewrite Z. replace (qltb 0%Qc 0%Qc) with false by reflexivity.
    rewrite (mass_sum ev q vs EV Hq ND I). apply sum_over_zero. intros a Ra Ea.
    rewrite (mass_total ev (asg_q q) EV) in Z.
    apply (sum_over_zero_terms card (bnames b) (iweight ev) (iweight_ext ev)) with (b := a) in Z.
    + exact Z. + apply WB. + intros; apply iweight_nonneg; assumption.
    + intros v Hv. destruct (In_dec_s v vs) as [Hi|Hi].
      * rewrite Ea by (rewrite others_In; tauto). apply R, Hi.
      * apply Ra, others_In; tauto.
    + intros v Hv. apply Ea. rewrite others_In; tauto.
  - apply qeqb_false in Z. replace (qltb 0%Qc (mass b ev [])) with true; [reflexivity|].
    symmetry. apply qltb_true. apply Qc_nonneg_neq0_pos; assumption.
Qed.

End Net.
