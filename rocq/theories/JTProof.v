(** Loading tables and evidence into a junction tree, calibration, queries. *)
From Coq Require Import Field.
From Verif Require Import Base BaseFacts NDArray NDArrayFacts SumCalc Factor FactorFacts Exact Spec SpecFacts
  VEProof VEProof2 Order JoinTree HuginPure Hugin.

(** ** The structure of a tree *)
Definition vars_of (t : jtree) : dict (list string) := map (fun p => (fst p, cvars (snd p))) (tnodes t).
Definition seps_of (t : jtree) : list ((string * string) * list string) :=
  map (fun p => (fst p, svars (snd p))) (tedges t).

Fixpoint sget (u v : string) (l : list ((string * string) * list string)) : option (list string) :=
  match l with [] => None | (e, s) :: l' => if same_edge u v e then Some s else sget u v l' end.

Definition cvo (t : jtree) (k : string) : list string :=
  match dget k (vars_of t) with Some l => l | None => [] end.

Definition family (n : dnode) : list string := dn_name n :: map fst (dn_parents n).
Definition families (b : bn) : list (list string) := map family (bnodes b).

(** The clique a family's table goes to. *)
Definition home (t : jtree) (F : list string) : option string :=
  option_map fst (find (fun p => subset F (snd p)) (vars_of t)).

Inductive seps_ok (t : jtree) (sv : string -> list string) : rtree -> Prop :=
| SO_ k cs : Forall (fun c => sget (rkey c) k (seps_of t) = Some (sv (rkey c))) cs ->
    Forall (seps_ok t sv) cs -> seps_ok t sv (RT k cs).

(** The variables of the families homed at a clique. *)
Definition homed (b : bn) (t : jtree) (k : string) : list string :=
  flat_map (fun F => match home t F with Some h => if String.eqb h k then F else [] | None => [] end) (families b).

Lemma homed_In b t k v : In v (homed b t k) <-> exists F, In F (families b) /\ home t F = Some k /\ In v F.
Proof.
  unfold homed. rewrite in_flat_map. split; intros (F & HF & H); exists F; (split; [exact HF|]).
  - destruct (home t F) as [h|]; [|destruct H]. destruct (String.eqb h k) eqn:E; [|destruct H]. apply String.eqb_eq in E. subst. auto.
  - destruct H as [-> H]. rewrite String.eqb_refl. exact H.
Qed.

(** Every variable of a clique that its parent does not have occurs in a table of
    the subtree; every message upwards has a variable. *)
Inductive covered (b : bn) (t : jtree) (sv : string -> list string) : rtree -> Prop :=
| CV_ k cs : (forall v, In v (cvo t k) -> ~ In v (sv k) -> In v (scope_of sv (homed b t) (RT k cs))) ->
    Forall (fun c => msc sv (homed b t) c <> []) cs ->
    Forall (covered b t sv) cs -> covered b t sv (RT k cs).

Record jt_ok (b : bn) (t : jtree) (r : rtree) (sv : string -> list string) : Prop := {
  jo_root : exists rest, dkeys (tnodes t) = rkey r :: rest;
  jo_nodup : NoDup (dkeys (tnodes t));
  jo_rnodup : NoDup (rkeys r);
  jo_keys : forall k, In k (rkeys r) <-> In k (dkeys (tnodes t));
  jo_ne : ~ In "" (rkeys r);
  jo_adj : adjok (tadj t) None r;
  jo_rjt : rjt (cvo t) sv r;
  jo_sne : seps_ne sv r;
  jo_sv0 : sv (rkey r) = [];
  jo_seps : seps_ok t sv r;
  jo_U : forall k, incl (cvo t k) (bnames b);
  jo_fam : forall F, In F (families b) -> exists k, home t F = Some k;
  jo_cov : covered b t sv r
}.

Lemma skel_vars t t' : skel t = skel t' -> vars_of t = vars_of t'.
Proof.
  intros E. apply (f_equal tnodes) in E. unfold skel, clear_factors, set_valid in E; cbn in E.
  apply (f_equal (map (fun p => (fst p, cvars (snd p))))) in E. rewrite !map_map in E. exact E.
Qed.

Lemma skel_seps t t' : skel t = skel t' -> seps_of t = seps_of t'.
Proof.
  intros E. apply (f_equal tedges) in E. unfold skel, clear_factors, set_valid in E; cbn in E.
  apply (f_equal (map (fun p => (fst p, svars (snd p))))) in E. rewrite !map_map in E. exact E.
Qed.

Lemma vars_keys t : dkeys (vars_of t) = dkeys (tnodes t).
Proof. unfold dkeys, vars_of. rewrite map_map. reflexivity. Qed.

Lemma dget_vars k t : dget k (vars_of t) = option_map cvars (dget k (tnodes t)).
Proof.
  unfold vars_of. induction (tnodes t) as [|[k' c] l IH]; cbn; [reflexivity|].
  destruct (String.eqb k k'); [reflexivity|exact IH].
Qed.

Lemma sget_seps u v t : sget u v (seps_of t) = option_map svars (eget u v (tedges t)).
Proof.
  unfold seps_of. induction (tedges t) as [|[e c] l IH]; cbn; [reflexivity|].
  destruct (same_edge u v e); [reflexivity|exact IH].
Qed.

Lemma cvo_node k t c : dget k (tnodes t) = Some c -> cvo t k = cvars c.
Proof. intros E. unfold cvo. rewrite dget_vars, E. reflexivity. Qed.

Lemma cvo_skel t t' : skel t = skel t' -> cvo t = cvo t'.
Proof. intros E. unfold cvo. rewrite (skel_vars _ _ E). reflexivity. Qed.

Lemma seps_ok_skel t t' sv r : skel t = skel t' -> seps_ok t sv r -> seps_ok t' sv r.
Proof.
  intros E. induction r as [k cs IH] using rtree_ind'. intros H. inversion H as [? ? A B]; subst.
  constructor.
  - rewrite <- (skel_seps _ _ E). exact A.
  - rewrite Forall_forall in IH, B |- *. auto.
Qed.

Lemma covered_skel b b' t t' sv r : families b = families b' -> skel t = skel t' -> covered b t sv r -> covered b' t' sv r.
Proof.
  intros EF E. assert (EH : homed b' t' = homed b t) by (unfold homed, home; rewrite <- (skel_vars _ _ E), <- EF; reflexivity).
  induction r as [k cs IH] using rtree_ind'. intros H. inversion H as [? ? A M B]; subst.
  constructor.
  - rewrite <- (cvo_skel _ _ E), EH. exact A.
  - rewrite EH. exact M.
  - rewrite Forall_forall in IH, B |- *. auto.
Qed.

Lemma families_bnames b b' : families b = families b' -> bnames b = bnames b'.
Proof.
  intros E. apply (f_equal (map (hd ""))) in E. unfold families in E. rewrite !map_map in E. exact E.
Qed.

Lemma jt_ok_same b b' t t' r sv : families b = families b' -> skel t = skel t' -> jt_ok b t r sv -> jt_ok b' t' r sv.
Proof.
  intros EF E [H1 H2 H2' H3 H4 H5 H6 H7 H8 H9 H10 H11 H12].
  assert (K := skel_keys _ _ E). assert (A := skel_adj _ _ E). assert (C := cvo_skel _ _ E).
  split; try assumption.
  - rewrite <- K; exact H1. - rewrite <- K; exact H2. - intros k. rewrite <- K. apply H3. - rewrite <- A; exact H5.
  - rewrite <- C; exact H6. - eapply seps_ok_skel; eassumption.
  - rewrite <- C. rewrite <- (families_bnames _ _ EF). exact H10.
  - intros F HF. rewrite <- EF in HF. unfold home. rewrite <- (skel_vars _ _ E). apply H11, HF.
  - eapply covered_skel; eassumption.
Qed.

(** ** Assigning a factor to the first fitting clique *)
Fixpoint assign_at {SO : SetOrder} (P : list string -> bool) (f : factor) (l : dict clique) : res (dict clique) :=
  match l with
  | [] => Ok []
  | (k, c) :: l' => if P (cvars c)
                    then let* g := fmul (cfac c) f in Ok ((k, mkC (cvars c) g) :: l')
                    else let* r := assign_at P f l' in Ok ((k, c) :: r)
  end.

Lemma assign_factor_at {SO : SetOrder} f l : assign_factor f l = assign_at (subset (dkeys (fvals f))) f l.
Proof. induction l as [|[k c] l IH]; cbn; [reflexivity|]. rewrite IH. reflexivity. Qed.
Lemma assign_evidence_at {SO : SetOrder} v f l : assign_evidence v f l = assign_at (mem v) f l.
Proof. induction l as [|[k c] l IH]; cbn; [reflexivity|]. rewrite IH. reflexivity. Qed.

Lemma assign_at_none {SO : SetOrder} P f l : find (fun p => P (cvars (snd p))) l = None -> assign_at P f l = Ok l.
Proof.
  induction l as [|[k c] l IH]; cbn; [reflexivity|]. destruct (P (cvars c)); [discriminate|].
  intros E. rewrite (IH E). reflexivity.
Qed.

Lemma assign_at_some {SO : SetOrder} P f l k0 c0 : NoDup (dkeys l) ->
  find (fun p => P (cvars (snd p))) l = Some (k0, c0) ->
  assign_at P f l = (let* g := fmul (cfac c0) f in Ok (dset k0 (mkC (cvars c0) g) l)).
Proof.
  induction l as [|[k c] l IH]; cbn; [discriminate|]. intros ND. inversion ND as [|? ? N ND']; subst.
  destruct (P (cvars c)) eqn:EP.
  - intros E. inversion E; subst. rewrite eqb_refl_s. reflexivity.
  - intros E. rewrite (IH ND' E). destruct (String.eqb_spec k0 k) as [->|_].
    + exfalso. apply N. apply find_some in E as [E _]. apply (in_map fst) in E. exact E.
    + destruct (fmul (cfac c0) f); reflexivity.
Qed.

Lemma find_vars P t : option_map (fun p => (fst p, cvars (snd p))) (find (fun p => P (cvars (snd p))) (tnodes t)) =
  find (fun p => P (snd p)) (vars_of t).
Proof.
  unfold vars_of. induction (tnodes t) as [|[k c] l IH]; cbn; [reflexivity|].
  destruct (P (cvars c)); [reflexivity|exact IH].
Qed.

Lemma skel_assign {SO : SetOrder} P f t l : assign_at P f (tnodes t) = Ok l ->
  skel (mkT l (tadj t) (tedges t) (tvalid t)) = skel t.
Proof.
  intros E. unfold skel, clear_factors, set_valid; cbn. f_equal. revert l E.
  induction (tnodes t) as [|[k c] d IH]; cbn; intros l E; [inversion E; reflexivity|].
  destruct (P (cvars c)).
  - destruct (fmul (cfac c) f); [|discriminate]. inversion E; subst. reflexivity.
  - destruct (assign_at P f d) eqn:E'; [|discriminate]. inversion E; subst. cbn. f_equal. apply IH; reflexivity.
Qed.

(** ** Structure is preserved by every operation, also when it raises *)
Lemma skel_send {SO : SetOrder} u v t : skel (fst (send u v t)) = skel t.
Proof.
  unfold send. match goal with |- context [match ?x with Ok _ => _ | Err _ => _ end] => destruct x as [[new f]|] end; [|reflexivity].
  cbn [fst]. rewrite skel_set_sfac, skel_set_cfac. reflexivity.
Qed.

Lemma skel_each {A} (f : A -> jtree -> jtree * res unit) l t : (forall x t, In x l -> skel (fst (f x t)) = skel t) ->
  skel (fst (each f l t)) = skel t.
Proof.
  revert t; induction l as [|x l IH]; intros t H; cbn; [reflexivity|].
  assert (Hx := H x t (or_introl eq_refl)). destruct (f x t) as [t' [u|e]]; cbn in Hx |- *; [|exact Hx].
  rewrite IH; [exact Hx|]. intros y t0 Hy. apply H; right; exact Hy.
Qed.

Lemma skel_pull {SO : SetOrder} fuel : forall k p t, skel (fst (pull fuel k p t)) = skel t.
Proof.
  induction fuel as [|n IH]; intros k p t; cbn [pull]; [reflexivity|].
  match goal with |- context [each ?f ?l t] => assert (E := skel_each f l t); destruct (each f l t) as [t' [u|e]] end.
  - specialize (E (fun x t _ => IH x (Some k) t)). cbn in E. destruct p as [[|]|]; [exact E| |exact E]. rewrite skel_send. exact E.
  - apply E. intros; apply IH.
Qed.

Lemma skel_push {SO : SetOrder} fuel : forall k p t, skel (fst (push fuel k p t)) = skel t.
Proof.
  induction fuel as [|n IH]; intros k p t; cbn [push]; [reflexivity|].
  apply skel_each. intros x t0 _. assert (S := skel_send k x t0). destruct (send k x t0) as [t' [u|e]]; cbn in S |- *; [|exact S].
  rewrite IH. exact S.
Qed.

Lemma skel_calc {SO : SetOrder} t : skel (fst (calculate_messages t)) = skel t.
Proof.
  unfold calculate_messages. destruct (dkeys (tnodes t)) as [|root rest]; [reflexivity|].
  assert (P := skel_pull (S (length (tnodes t))) root None t).
  destruct (pull (S (length (tnodes t))) root None t) as [t1 [u|e]]; cbn in P.
  - assert (Q := skel_push (S (length (tnodes t))) root None t1).
    destruct (push (S (length (tnodes t))) root None t1) as [t2 [u'|e]]; cbn in Q.
    + cbn [fst]. rewrite skel_valid. congruence.
    + transitivity (skel t2); [destruct e; reflexivity|congruence].
  - transitivity (skel t1); [destruct e; reflexivity|exact P].
Qed.

Lemma skel_marginals {SO : SetOrder} t Q : skel (fst (tmarginals t Q)) = skel t.
Proof.
  unfold tmarginals. assert (C := skel_calc t). destruct (tvalid t); cbn; [reflexivity|].
  destruct (calculate_messages t) as [t' [u|e]]; exact C.
Qed.

Lemma skel_clear t : skel (clear_factors t) = skel t.
Proof.
  unfold skel, clear_factors, set_valid; cbn. rewrite !map_map. reflexivity.
Qed.

Lemma skel_assign_factors {SO : SetOrder} fs t t' : assign_factors fs t = Ok t' -> skel t' = skel t.
Proof.
  unfold assign_factors. revert t. induction fs as [|f fs IH]; cbn [foldM rbind]; intros t.
  - intros E; inversion E; subst. destruct t; reflexivity.
  - rewrite assign_factor_at. destruct (assign_at _ f (tnodes t)) as [l|] eqn:E1; [|discriminate]. cbn [rbind].
    assert (S := skel_assign _ _ _ _ E1). intros E2. rewrite <- S. apply (IH (mkT l (tadj t) (tedges t) (tvalid t))). exact E2.
Qed.

Lemma skel_reset {SO : SetOrder} b t : skel (fst (reset_factors b t)) = skel t.
Proof.
  unfold reset_factors. destruct (assign_factors _ _) as [t'|e] eqn:E; cbn [fst].
  - apply skel_assign_factors in E. rewrite skel_valid, E. apply skel_clear.
  - apply skel_clear.
Qed.

Lemma skel_old {SO : SetOrder} vs : forall t, skel (fst (old_marginals vs t)) = skel t.
Proof.
  induction vs as [|v vs IH]; intros t; cbn; [reflexivity|].
  assert (M := skel_marginals t [v]). destruct (tmarginals t [v]) as [t1 [f|e]]; cbn in M; [|exact M].
  specialize (IH t1). destruct (old_marginals vs t1) as [t2 [d|e]]; cbn in *; congruence.
Qed.

Lemma skel_add_ev {SO : SetOrder} b old p t : skel (fst (add_tree_evidence b old p t)) = skel t.
Proof.
  unfold add_tree_evidence. destruct (get_node b (fst p)) as [n|]; cbn [rbind]; [|reflexivity].
  destruct (as_evidence _ _ _ _) as [ef|]; cbn [rbind]; [|reflexivity].
  rewrite assign_evidence_at. destruct (assign_at _ _ _) as [l|] eqn:E; [|reflexivity]. cbn [fst].
  eapply skel_assign, E.
Qed.

Lemma skel_set_evidence {SO : SetOrder} b ev soft t : skel (fst (set_evidence b ev soft t)) = skel t.
Proof.
  unfold set_evidence. assert (R := skel_reset b t). destruct (reset_factors b t) as [t1 [u|e]]; cbn in R; [|exact R].
  match goal with |- skel (fst (let (_, _) := ?x in _)) = _ => assert (X : skel (fst x) = skel t); [|destruct x as [t2 old]] end.
  { destruct soft; [|exact R]. assert (C := skel_calc t1). destruct (calculate_messages t1) as [t' [u'|e]]; cbn in C |- *; [|congruence].
    assert (O := skel_old (dkeys ev) t'). destruct (old_marginals (dkeys ev) t') as [t'' [d|e]]; cbn in O |- *; [|congruence].
    assert (R2 := skel_reset b t''). destruct (reset_factors b t'') as [t3 [u3|e]]; cbn in R2 |- *; congruence. }
  cbn in X. destruct old as [d|e]; [|exact X].
  assert (Y := skel_each (add_tree_evidence b d) ev t2 (fun x t _ => skel_add_ev b d x t)).
  destruct (each _ ev t2) as [t3 [u'|e]]; cbn in Y |- *; [|congruence].
  rewrite skel_calc. congruence.
Qed.

Section Calib.
Context {SO : SetOrder}.
Variable b : bn.
Hypothesis WB : wf_bn b.
Notation dom := (values_of b).
Notation card := (FactorFacts.card dom).
Notation U := (bnames b).
Notation rep := (rep dom U).

Lemma zero_range : inrange card U (fun _ => 0).
Proof.
  intros v Hv. apply in_bnames in Hv as (n & Hn & <-). unfold FactorFacts.card. rewrite values_of_node by assumption.
  destruct (wn_values _ _ (wb_nodes _ WB n Hn)) as [H _]. destruct (dn_values n); [congruence|cbn; lia].
Qed.

(** Clique factors hold tables for [psi]; all of them together for [W]. *)
Record load (t : jtree) (sc : string -> list string) (psi : string -> asg -> Qc) (W : asg -> Qc) : Prop := {
  ld_rep : forall k c, dget k (tnodes t) = Some c -> rep (cfac c) (sc k) (psi k);
  ld_sc : forall k, incl (sc k) (cvo t k);
  ld_deps : forall k, deps (cvo t k) (psi k);
  ld_nonneg : forall k a, inrange card U a -> (0 <= psi k a)%Qc;
  ld_prod : forall a, inrange card U a -> qprod (map (fun k => psi k a) (dkeys (tnodes t))) = W a
}.

Definition trivial_seps (t : jtree) : Prop :=
  forall u v s, eget u v (tedges t) = Some s -> sfac s = trivial 1%Qc.

Lemma dget_map_v {A B} (g : A -> B) k (d : dict A) :
  dget k (map (fun p => (fst p, g (snd p))) d) = option_map g (dget k d).
Proof. induction d as [|[k' c] d IH]; cbn; [reflexivity|]. destruct (String.eqb k k'); [reflexivity|exact IH]. Qed.

Lemma rep_trivial q : rep (trivial q) [] (fun _ => q).
Proof. split; [apply wf_trivial|]. split; [intros v; cbn; tauto|]. split; [intros v []|]. intros; apply feval_trivial. Qed.

Lemma load_clear t : load (clear_factors t) (fun _ => []) (fun _ _ => 1%Qc) (fun _ => 1%Qc).
Proof.
  split.
  - intros k c E. cbn in E. rewrite (dget_map_v (fun c => mkC (cvars c) (trivial 1%Qc)) k (tnodes t)) in E.
    destruct (dget k (tnodes t)); [|discriminate]. cbn in E. inversion E; subst. apply rep_trivial.
  - intros k v [].
  - intros k a a' _. reflexivity.
  - intros k a _. discriminate.
  - intros a _. generalize (dkeys (tnodes (clear_factors t))). intros l. induction l as [|x l IH]; cbn; [reflexivity|].
    rewrite IH. ring.
Qed.

Lemma trivial_clear t : trivial_seps (clear_factors t).
Proof.
  intros u v s E. cbn in E. revert E. induction (tedges t) as [|[e d] l IH]; cbn; [discriminate|].
  destruct (same_edge u v e); [|exact IH]. intros E; inversion E; reflexivity.
Qed.

Lemma qprod_update (ks : list string) k0 (P : string -> Qc) x : NoDup ks -> In k0 ks ->
  qprod (map (fun k => if String.eqb k k0 then (P k * x)%Qc else P k) ks) = (qprod (map P ks) * x)%Qc.
Proof.
  induction 1 as [|k ks N ND IH]; cbn; intros H; [tauto|]. destruct (String.eqb_spec k k0) as [->|n].
  - rewrite (map_ext_in _ P).
    + ring.
    + intros k Hk. destruct (String.eqb_spec k k0) as [->|]; [contradiction|reflexivity].
  - destruct H as [->|H]; [congruence|]. rewrite IH by exact H. ring.
Qed.

Lemma load_step t sc psi W k0 c0 f : NoDup (dkeys (tnodes t)) -> load t sc psi W ->
  dget k0 (tnodes t) = Some c0 -> wf_factor dom f -> incl (vorder f) (cvars c0) ->
  incl (cvars c0) U ->
  (forall a, inrange card U a -> (0 <= feval f a)%Qc) ->
  exists g sc' psi', fmul (cfac c0) f = Ok g /\
    load (set_cfac k0 g t) sc' psi' (fun a => W a * feval f a)%Qc /\
    (forall k, incl (sc k) (sc' k)) /\ incl (vorder f) (sc' k0).
Proof.
  intros ND L E0 Wf I IU Nn.
  assert (Rf : rep f (vorder f) (feval f)).
  { split; [exact Wf|]. split; [tauto|]. split; [intros v Hv; apply IU, I, Hv|reflexivity]. }
  destruct (rep_mul dom U (cfac c0) _ _ f _ _ (ld_rep _ _ _ _ L k0 c0 E0) Rf) as (g & Eg & Rg & _).
  exists g, (fun k => if String.eqb k k0 then sc k ++ vorder f else sc k),
    (fun k a => if String.eqb k k0 then (psi k a * feval f a)%Qc else psi k a).
  split; [exact Eg|].
  assert (SK : skel (set_cfac k0 g t) = skel t) by apply skel_set_cfac.
  assert (CV := cvo_skel _ _ SK). assert (C0 := cvo_node _ _ _ E0).
  split; [split|split].
  - intros k c E. rewrite dget_set_cfac in E. destruct (String.eqb_spec k k0) as [->|n].
    + rewrite E0 in E. cbn in E. inversion E; subst. exact Rg.
    + apply (ld_rep _ _ _ _ L k c E).
  - intros k. rewrite CV. destruct (String.eqb_spec k k0) as [->|n]; [|apply (ld_sc _ _ _ _ L)].
    apply incl_app; [apply (ld_sc _ _ _ _ L)|]. rewrite C0. exact I.
  - intros k. rewrite CV. destruct (String.eqb_spec k k0) as [->|n]; [|apply (ld_deps _ _ _ _ L)].
    apply deps_mult; [apply (ld_deps _ _ _ _ L)|]. eapply deps_incl; [|apply feval_deps]. rewrite C0. exact I.
  - intros k a R. destruct (String.eqb k k0); [|apply (ld_nonneg _ _ _ _ L), R].
    apply Qcmult_nonneg; [apply (ld_nonneg _ _ _ _ L), R|apply Nn, R].
  - intros a R. rewrite (skel_keys _ _ SK). rewrite qprod_update; [|exact ND|].
    + rewrite (ld_prod _ _ _ _ L a R). reflexivity.
    + apply dget_In in E0. apply (in_map fst) in E0. exact E0.
  - intros k v Hv. destruct (String.eqb k k0); [apply in_or_app; auto|exact Hv].
  - rewrite eqb_refl_s. apply incl_appr, incl_refl.
Qed.

Lemma mkT_set_cfac k c g t : dget k (tnodes t) = Some c ->
  mkT (dset k (mkC (cvars c) g) (tnodes t)) (tadj t) (tedges t) (tvalid t) = set_cfac k g t.
Proof. intros E. unfold set_cfac. rewrite E. reflexivity. Qed.

Lemma find_home P t k : option_map fst (find (fun p => P (snd p)) (vars_of t)) = Some k ->
  exists c, find (fun p => P (cvars (snd p))) (tnodes t) = Some (k, c).
Proof.
  rewrite <- find_vars. destruct (find _ (tnodes t)) as [[k' c]|]; cbn; [|discriminate]. intros E; inversion E; subst. eauto.
Qed.

(** One assignment. *)
Lemma assign_load P f t sc psi W k0 : NoDup (dkeys (tnodes t)) -> (forall k, incl (cvo t k) U) ->
  load t sc psi W -> option_map fst (find (fun p => P (snd p)) (vars_of t)) = Some k0 ->
  wf_factor dom f -> (forall X, P X = true -> incl (vorder f) X) ->
  (forall a, inrange card U a -> (0 <= feval f a)%Qc) ->
  exists l sc' psi', assign_at P f (tnodes t) = Ok l /\
    let t' := mkT l (tadj t) (tedges t) (tvalid t) in
    skel t' = skel t /\ tedges t' = tedges t /\
    load t' sc' psi' (fun a => W a * feval f a)%Qc /\
    (forall k, incl (sc k) (sc' k)) /\ incl (vorder f) (sc' k0).
Proof.
  intros ND HU L EH Wf I Nn. destruct (find_home P t k0 EH) as (c0 & Ef).
  assert (Ef' := Ef). apply find_some in Ef' as [Hin Hp]. cbn in Hp.
  assert (E0 : dget k0 (tnodes t) = Some c0) by (apply In_dget; [exact ND|exact Hin]).
  assert (IU : incl (cvars c0) U) by (rewrite <- (cvo_node _ _ _ E0); apply HU).
  destruct (load_step t sc psi W k0 c0 f ND L E0 Wf (I _ Hp) IU Nn) as (g & sc' & psi' & Eg & L' & I1 & I2).
  exists (dset k0 (mkC (cvars c0) g) (tnodes t)), sc', psi'.
  split; [rewrite (assign_at_some P f _ k0 c0 ND Ef), Eg; reflexivity|].
  cbn zeta. rewrite (mkT_set_cfac k0 c0 g t E0). split; [apply skel_set_cfac|]. split; [apply tedges_set_cfac|].
  split; [exact L'|]. auto.
Qed.

Lemma from_node_keys n : In n (bnodes b) -> dkeys (fvals (from_node n)) = family n.
Proof. intros H. rewrite (from_node_fvals b WB n H). reflexivity. Qed.

Lemma nonneg_feval n a : nonneg_bn b -> In n (bnodes b) -> (0 <= feval (from_node n) a)%Qc.
Proof. intros NN H. unfold feval, aget. apply nth_Forall_nonneg. apply (NN n H). Qed.

Lemma load_nodes ns : nonneg_bn b -> incl ns (bnodes b) -> forall t sc psi W,
  NoDup (dkeys (tnodes t)) -> (forall k, incl (cvo t k) U) ->
  (forall n, In n ns -> exists k, home t (family n) = Some k) ->
  load t sc psi W -> trivial_seps t ->
  exists t' sc' psi', assign_factors (map from_node ns) t = Ok t' /\ skel t' = skel t /\ tvalid t' = tvalid t /\
    trivial_seps t' /\
    load t' sc' psi' (fun a => W a * qprod (map (fun n => feval (from_node n) a) ns))%Qc /\
    (forall k, incl (sc k) (sc' k)) /\
    (forall n k, In n ns -> home t (family n) = Some k -> incl (family n) (sc' k)).
Proof.
  intros NN. induction ns as [|n ns IH]; intros I t sc psi W ND HU HH L TS.
  - exists t, sc, psi. split; [unfold assign_factors; destruct t; reflexivity|]. split; [reflexivity|].
    split; [reflexivity|]. split; [exact TS|]. split; [|split; [intros k; apply incl_refl|intros n k []]].
    destruct L; split; auto. intros a R. cbn. rewrite ld_prod0 by exact R. ring.
  - assert (Hn : In n (bnodes b)) by (apply I; left; reflexivity).
    destruct (HH n (or_introl eq_refl)) as (k0 & EH).
    destruct (assign_load (subset (dkeys (fvals (from_node n)))) (from_node n) t sc psi W k0 ND HU L)
      as (l & sc1 & psi1 & E1 & S1 & D1 & L1 & I1 & J1).
    { rewrite from_node_keys by exact Hn. exact EH. }
    { apply wf_from_node; assumption. }
    { intros X EX. rewrite from_node_keys in EX by exact Hn. apply subset_spec in EX. exact EX. }
    { intros a _. apply nonneg_feval; assumption. }
    set (t1 := mkT l (tadj t) (tedges t) (tvalid t)) in *.
    assert (V1 := skel_vars _ _ S1).
    destruct (IH (fun x Hx => I x (or_intror Hx)) t1 sc1 psi1 (fun a => W a * feval (from_node n) a)%Qc) as (t2 & sc2 & psi2 & E2 & S2 & V2 & T2 & L2 & I2 & J2).
    { rewrite (skel_keys _ _ S1). exact ND. } { rewrite (cvo_skel _ _ S1). exact HU. }
    { intros m Hm. unfold home. rewrite V1. apply HH; right; exact Hm. }
    { exact L1. }
    { intros u v s E. apply (TS u v s). rewrite <- D1. exact E. }
    exists t2, sc2, psi2. split.
    { unfold assign_factors in E2 |- *. cbn [map foldM]. rewrite assign_factor_at, E1. exact E2. }
    split; [congruence|]. split; [exact V2|]. split; [exact T2|]. split; [|split].
    + destruct L2; split; auto. intros a R. cbn [map qprod]. rewrite ld_prod0 by exact R. ring.
    + intros k v Hv. apply I2, I1, Hv.
    + intros m k [<-|Hm] Ek.
      * assert (k = k0) by congruence. subst k. intros v Hv. apply I2, J1. exact Hv.
      * apply J2; [exact Hm|]. unfold home. rewrite V1. exact Ek.
Qed.

(** Loaded with every table, ready for the passes. *)
Definition loaded (t : jtree) (W : asg -> Qc) : Prop :=
  trivial_seps t /\ exists sc psi, load t sc psi W /\
    forall F k, In F (families b) -> home t F = Some k -> incl F (sc k).

Lemma loaded_valid x t W : loaded t W -> loaded (set_valid x t) W.
Proof.
  intros (TS & sc & psi & [L1 L2 L3 L4 L5] & H). split; [exact TS|]. exists sc, psi.
  split; [split; assumption|exact H].
Qed.

Definition tables (a : asg) : Qc := qprod (map (fun n => feval (from_node n) a) (bnodes b)).

Lemma loaded_all t r sv : nonneg_bn b -> jt_ok b t r sv -> trivial_seps t ->
  load t (fun _ => []) (fun _ _ => 1%Qc) (fun _ => 1%Qc) ->
  exists t', assign_factors (map from_node (bnodes b)) t = Ok t' /\ skel t' = skel t /\ tvalid t' = tvalid t /\ loaded t' tables.
Proof.
  intros NN J TS L. destruct (load_nodes (bnodes b) NN (incl_refl _) t (fun _ => []) (fun _ _ => 1%Qc) (fun _ => 1%Qc)) as (t' & sc & psi & E & S & V & T & L' & _ & H).
  - apply J. - apply J.
  - intros n Hn. apply (jo_fam _ _ _ _ J). apply in_map, Hn.
  - exact L.
  - exact TS.
  - exists t'. split; [exact E|]. split; [exact S|]. split; [exact V|]. split; [exact T|]. exists sc, psi. split.
    + destruct L'; split; auto. intros a R. rewrite ld_prod0 by exact R. unfold tables. ring.
    + intros F k HF Ek. apply in_map_iff in HF as (n & <- & Hn). apply H; [exact Hn|].
      unfold home in Ek |- *. rewrite <- (skel_vars _ _ S). exact Ek.
Qed.

Lemma reset_loaded t r sv : nonneg_bn b -> jt_ok b t r sv ->
  exists t', reset_factors b t = (t', Ok tt) /\ skel t' = skel t /\ tvalid t' = false /\ loaded t' tables.
Proof.
  intros NN J. assert (S0 : skel (clear_factors t) = skel t) by apply skel_clear.
  destruct (loaded_all (clear_factors t) r sv NN) as (t' & E & S & V & L).
  - eapply jt_ok_same; [reflexivity|symmetry; exact S0|exact J].
  - apply trivial_clear.
  - apply load_clear.
  - exists (set_valid false t'). unfold reset_factors. rewrite E. split; [reflexivity|].
    split; [rewrite skel_valid; congruence|]. split; [reflexivity|apply loaded_valid, L].
Qed.

(** One evidence factor. *)
Lemma loaded_evidence t r sv W v f : jt_ok b t r sv -> loaded t W -> In v U ->
  wf_factor dom f -> vorder f = [v] -> (forall a, inrange card U a -> (0 <= feval f a)%Qc) ->
  exists l, assign_evidence v f (tnodes t) = Ok l /\
    let t' := mkT l (tadj t) (tedges t) (tvalid t) in
    skel t' = skel t /\ loaded t' (fun a => W a * feval f a)%Qc.
Proof.
  intros J (TS & sc & psi & L & H) Hv Wf Ef Nn. rewrite assign_evidence_at.
  assert (EX : exists k, option_map fst (find (fun p => mem v (snd p)) (vars_of t)) = Some k).
  { apply in_bnames in Hv as (n & Hn & <-). destruct (jo_fam _ _ _ _ J (family n) (in_map _ _ _ Hn)) as (k & Ek).
    unfold home in Ek. destruct (find (fun p => subset (family n) (snd p)) (vars_of t)) as [[k' X]|] eqn:EF; [|discriminate].
    apply find_some in EF as [F1 F2]. cbn [snd] in F2. apply subset_spec in F2.
    destruct (find (fun p => mem (dn_name n) (snd p)) (vars_of t)) as [[k2 X2]|] eqn:E2; [eexists; reflexivity|].
    exfalso. assert (N := find_none _ _ E2 _ F1). cbn in N. apply mem_nIn in N. apply N, F2. left; reflexivity. }
  destruct EX as (k0 & EH).
  destruct (assign_load (mem v) f t sc psi W k0) as (l & sc1 & psi1 & E1 & S1 & D1 & L1 & I1 & J1); auto.
  - apply J. - apply J.
  - intros X EXx. rewrite Ef. apply mem_In in EXx. intros x [<-|[]]. exact EXx.
  - exists l. split; [exact E1|]. cbn zeta in *. split; [exact S1|]. split.
    + intros u w s E. apply (TS u w s). exact E.
    + exists sc1, psi1. split; [exact L1|]. intros F k HF Ek. unfold home in Ek. rewrite (skel_vars _ _ S1) in Ek.
      intros x Hx. apply I1, (H F k HF Ek), Hx.
Qed.

(** ** Calibration *)
Definition calibrated (t : jtree) (r : rtree) (sv : string -> list string) (W : asg -> Qc) : Prop :=
  final dom U (cvo t) sv (fun X => sum_over card (minus (V (cvo t) sv r) X) W) t r.

Lemma tprod_prod psi r a : tprod psi r a = qprod (map (fun k => psi k a) (rkeys r)).
Proof.
  induction r as [k cs IH] using rtree_ind'. cbn. f_equal. induction cs as [|c cs IHc]; cbn; [reflexivity|].
  inversion IH; subst. rewrite map_app, qprod_app. rewrite H1, IHc by assumption. reflexivity.
Qed.

Lemma allp_in cv sv r v : In v (allp cv sv r) -> exists k, In k (rkeys r) /\ In v (cv k).
Proof.
  induction r as [k cs IH] using rtree_ind'. cbn. intros H. apply in_app_or in H as [H|H].
  - exists k. split; [left; reflexivity|]. apply minus_In in H. tauto.
  - apply in_flat_map in H as (c & Hc & H). rewrite Forall_forall in IH. destruct (IH c Hc H) as (k' & K & V').
    exists k'. split; [right; apply in_flat_map; eauto|exact V'].
Qed.

Lemma V_in cv sv r v : In v (V cv sv r) -> exists k, In k (rkeys r) /\ In v (cv k).
Proof.
  destruct r as [k cs]. cbn. intros H. apply in_app_or in H as [H|H].
  - exists k. split; [left; reflexivity|exact H].
  - apply in_flat_map in H as (c & Hc & H). destruct (allp_in _ _ _ _ H) as (k' & K & V').
    exists k'. split; [right; apply in_flat_map; eauto|exact V'].
Qed.

Lemma cv_in_V (cd : string -> nat) cv sv r k : rjt cv sv r -> In k (rkeys r) -> incl (cv k) (V cv sv r).
Proof.
  induction r as [k0 cs IH] using rtree_ind'. intros J [<-|H].
  - cbn. apply incl_appl, incl_refl.
  - apply in_flat_map in H as (c & Hc & H). rewrite Forall_forall in IH.
    assert (J0 := J). apply rjt_inv in J0 as (_ & _ & Js & _). rewrite Forall_forall in Js.
    intros v Hv. apply (V_child cd cv sv k0 cs c J Hc). apply (IH c Hc (Js c Hc) H v Hv).
Qed.

Lemma V_names t r sv : jt_ok b t r sv -> Permutation (V (cvo t) sv r) U.
Proof.
  intros J. apply NoDup_Permutation; [apply (V_NoDup card), J|apply WB|]. intros v. split.
  - intros H. apply V_in in H as (k & _ & H). apply (jo_U _ _ _ _ J) in H. exact H.
  - intros H. apply in_bnames in H as (n & Hn & <-). destruct (jo_fam _ _ _ _ J (family n) (in_map _ _ _ Hn)) as (k & Ek).
    unfold home in Ek. destruct (find (fun p => subset (family n) (snd p)) (vars_of t)) as [[k' X]|] eqn:EF; [|discriminate].
    apply find_some in EF as [F1 F2]. cbn [snd] in F2. apply subset_spec in F2.
    assert (D : dget k' (vars_of t) = Some X) by (apply In_dget; [rewrite vars_keys; apply J|exact F1]).
    assert (CVX : cvo t k' = X) by (unfold cvo; rewrite D; reflexivity).
    apply (cv_in_V card _ _ _ k'); [apply J| |rewrite CVX; apply F2; left; reflexivity].
    apply (jo_keys _ _ _ _ J). rewrite <- vars_keys. apply (in_map fst) in F1. exact F1.
Qed.

Lemma rkeys_perm t r sv : jt_ok b t r sv -> Permutation (rkeys r) (dkeys (tnodes t)).
Proof. intros J. apply NoDup_Permutation; try apply J. Qed.

Lemma qprod_perm_map {A} (f : A -> Qc) l m : Permutation l m -> qprod (map f l) = qprod (map f m).
Proof.
  induction 1; cbn; [reflexivity| rewrite IHPermutation; reflexivity | ring | congruence].
Qed.

Lemma ready_of t r sv sc psi W : jt_ok b t r sv -> load t sc psi W -> trivial_seps t ->
  (forall F k, In F (families b) -> home t F = Some k -> incl F (sc k)) ->
  forall x p, seps_ok t sv x -> covered b t sv x -> msc sv (homed b t) x <> [] -> incl (rkeys x) (dkeys (tnodes t)) -> ~ In "" (rkeys x) ->
    sget (rkey x) p (seps_of t) = Some (sv (rkey x)) ->
    ready dom U (cvo t) sv sc psi t p x.
Proof.
  intros J L TS H.
  assert (HO : forall k, incl (homed b t k) (sc k)) by (intros k v Hv; apply homed_In in Hv as (F & HF & HH & Hv); exact (H F k HF HH v Hv)).
  assert (SM := scope_mono sv (homed b t) sc HO).
  induction x as [k cs IH] using rtree_ind'. intros p HS HC HM HI HN HG. cbn [rkey] in HG.
  inversion HS as [? ? A B]; subst. inversion HC as [? ? C M D]; subst.
  destruct (dget_key k (tnodes t) (HI k (or_introl eq_refl))) as [c Ec].
  rewrite sget_seps in HG. destruct (eget k p (tedges t)) as [s|] eqn:Es; [|discriminate]. cbn in HG. inversion HG as [HG'].
  assert (Tr := TS _ _ _ Es).
  econstructor.
  - rewrite Ec, (cvo_node _ _ _ Ec). instantiate (1 := cfac c). destruct c; reflexivity.
  - apply (ld_rep _ _ _ _ L k c Ec).
  - apply (ld_sc _ _ _ _ L).
  - intros v Hv Nv. apply SM, C; assumption.
  - intros E. apply HM. destruct (msc sv (homed b t) (RT k cs)) as [|v l] eqn:El; [reflexivity|exfalso].
    assert (Hv : In v (msc sv (homed b t) (RT k cs))) by (rewrite El; left; reflexivity).
    apply filter_In in Hv as [H1 H2]. assert (Hv : In v (msc sv sc (RT k cs))) by (apply filter_In; split; [apply SM, H1|exact H2]).
    rewrite E in Hv. destruct Hv.
  - rewrite Es, <- HG'. instantiate (1 := sfac s). destruct s; reflexivity.
  - rewrite Tr. apply rep_trivial.
  - intros ->. apply HN; left; reflexivity.
  - rewrite Forall_forall in IH, A, B, M, D |- *. intros c' Hc'. apply IH; auto.
    + intros x Hx. apply HI. right. apply in_flat_map; eauto.
    + intros Hx. apply HN. right. apply in_flat_map; eauto.
Qed.

Theorem calculate_calibrates t r sv W : jt_ok b t r sv -> loaded t W ->
  exists t', calculate_messages t = (t', Ok tt) /\ skel t' = skel t /\ tvalid t' = true /\ calibrated t' r sv W.
Proof.
  intros J (TS & sc & psi & L & H). assert (J0 := J). destruct r as [k cs].
  destruct (jo_root _ _ _ _ J) as (rest & Er). cbn [rkey] in Er.
  assert (HI : incl (rkeys (RT k cs)) (dkeys (tnodes t))) by (intros x; apply (jo_keys _ _ _ _ J)).
  destruct (dget_key k (tnodes t) (HI k (or_introl eq_refl))) as [c Ec].
  assert (HS := jo_seps _ _ _ _ J). assert (HC := jo_cov _ _ _ _ J).
  inversion HS as [? ? A B]; subst. inversion HC as [? ? C M D]; subst.
  assert (HO : forall k, incl (homed b t k) (sc k)) by (intros k0 v Hv; apply homed_In in Hv as (F & HF & HH & Hv); exact (H F k0 HF HH v Hv)).
  assert (Ck := cvo_node _ _ _ Ec).
  destruct (passes_spec dom U zero_range (cvo t) sv sc psi (ld_deps _ _ _ _ L) (jo_U _ _ _ _ J) (ld_nonneg _ _ _ _ L)
    k cs t (cfac c) (S (length (tnodes t)))) as (t1 & t2 & E1 & E2 & F & Fi).
  - assert (P := Permutation_length (rkeys_perm _ _ _ J)). unfold dkeys in P. rewrite map_length in P. lia.
  - apply J. - apply J. - apply J. - apply J. - apply (jo_sv0 _ _ _ _ J).
  - intros ->. apply (jo_ne _ _ _ _ J). left; reflexivity.
  - apply (ld_sc _ _ _ _ L).
  - intros v Hv. apply (scope_mono sv (homed b t) sc HO), C; [exact Hv|]. rewrite (jo_sv0 _ _ _ _ J : sv k = []). intros [].
  - rewrite Ck, Ec. destruct c; reflexivity.
  - apply (ld_rep _ _ _ _ L k c Ec).
  - rewrite Forall_forall in A, B, M, D |- *. intros c' Hc'. eapply ready_of; eauto.
    + intros x Hx. apply HI. right. apply in_flat_map; eauto.
    + intros Hx. apply (jo_ne _ _ _ _ J). right. apply in_flat_map; eauto.
  - exists (set_valid true t2). unfold calculate_messages. rewrite Er. rewrite E1, E2.
    split; [reflexivity|]. assert (SK : skel (set_valid true t2) = skel t) by (rewrite skel_valid; apply F).
    split; [exact SK|]. split; [reflexivity|]. unfold calibrated. rewrite (cvo_skel _ _ SK).
    assert (TP : forall a, inrange card U a -> tprod psi (RT k cs) a = W a).
    { intros a R. rewrite tprod_prod. rewrite (qprod_perm_map (fun k => psi k a) _ _ (rkeys_perm _ _ _ J)).
      apply (ld_prod _ _ _ _ L a R). }
    assert (Fi' : final dom U (cvo t) sv (fun X => sum_over card (minus (V (cvo t) sv (RT k cs)) X) W) t2 (RT k cs)).
    { eapply (final_ext dom U (cvo t) sv); [apply (jo_rjt _ _ _ _ J)| |exact Fi]. intros X a IX R. unfold mg.
      apply sum_over_ext_in. intros a' R' E'. rewrite TP; [ring|].
      intros v Hv. destruct (In_dec_s v (minus (V (cvo t) sv (RT k cs)) X)) as [Y|Y]; [apply R', Y|].
      rewrite E' by exact Y. apply R, Hv. }
    revert Fi'. clear. intros Fi. eapply final_frame; [exact Fi| |]; reflexivity.
Qed.

Lemma final_node cv sv L t r k : final dom U cv sv L t r -> In k (rkeys r) ->
  exists f, dget k (tnodes t) = Some (mkC (cv k) f) /\ rep f (cv k) (L (cv k)).
Proof.
  induction r as [k0 cs IH] using rtree_ind'. intros F [<-|H]; inversion F as [? ? f H1 H2 H3 H4]; subst; [eauto|].
  apply in_flat_map in H as (c & Hc & H). rewrite Forall_forall in IH, H4. eauto.
Qed.

(** The clique a query is answered from. *)
Definition in_clique (t : jtree) (Q : list string) : Prop := exists k, incl Q (cvo t k) /\ In k (dkeys (tnodes t)).

Lemma query_ok t r sv W Q : jt_ok b t r sv -> calibrated t r sv W -> tvalid t = true -> in_clique t Q ->
  ext W ->
  exists f, tmarginals t Q = (t, Ok (normalize f)) /\ wf_factor dom f /\ (forall v, In v (vorder f) <-> In v Q) /\
    incl Q U /\ forall a, inrange card U a -> feval f a = sum_over card (others b Q) W a.
Proof.
  intros J C Vt (k1 & I1 & K1) X. unfold tmarginals. rewrite Vt. cbn iota.
  destruct (find (fun p => subset Q (cvars (snd p))) (tnodes t)) as [[k c]|] eqn:EF.
  2: { exfalso. destruct (dget_key k1 (tnodes t) K1) as [c Ec]. assert (N := find_none _ _ EF _ (dget_In _ _ _ Ec)). cbn in N.
       rewrite <- (cvo_node _ _ _ Ec) in N. apply not_true_iff_false in N. apply N, subset_spec, I1. }
  apply find_some in EF as [F1 F2]. cbn [snd] in F2. apply subset_spec in F2.
  assert (Ec : dget k (tnodes t) = Some c) by (apply In_dget; [apply J|exact F1]).
  assert (Kr : In k (rkeys r)) by (apply (jo_keys _ _ _ _ J); apply (in_map fst) in F1; exact F1).
  destruct (final_node _ _ _ _ _ k C Kr) as (f0 & E0 & R0). assert (c = mkC (cvo t k) f0) by congruence. subst c. cbn [cvars cfac] in *.
  assert (IV := cv_in_V card _ _ _ k (jo_rjt _ _ _ _ J) Kr).
  assert (NC : NoDup (cvo t k)).
  { assert (G : forall x, rjt (cvo t) sv x -> In k (rkeys x) -> NoDup (cvo t k)).
    { clear. induction x as [k0 cs IH] using rtree_ind'. intros J [<-|H]; apply rjt_inv in J as (N & _ & Js & _); [exact N|].
      apply in_flat_map in H as (c & Hc & H). rewrite Forall_forall in IH, Js. eauto. }
    apply (G r); [apply J|exact Kr]. }
  destruct (rep_marg dom U f0 (cvo t k) _ (cvo t k) Q R0 NC (incl_refl _) (jo_U _ _ _ _ J k) (fun v H _ => H)) as (h & Eh & Rh).
  exists h. rewrite Eh. cbn [rbind]. split; [reflexivity|]. destruct Rh as (Wh & Sh & Ih & Vh).
  split; [exact Wh|]. split.
  { intros v. rewrite Sh, filter_In, mem_In. split; [tauto|]. auto. }
  split; [intros v Hv; apply (jo_U _ _ _ _ J k), F2, Hv|].
  intros a R. rewrite Vh by exact R. rewrite <- sum_over_app. apply sum_over_perm; [exact X|].
  assert (PV := V_names t r sv J).
  apply NoDup_Permutation.
  - apply NoDup_app_disj.
    + apply minus_NoDup, NC.
    + apply minus_NoDup. apply (V_NoDup card), J.
    + intros v H1 H2. apply minus_In in H1, H2. tauto.
  - unfold others. apply NoDup_filter, WB.
  - intros v. rewrite in_app_iff, !minus_In, others_In. split.
    + intros [[H1 H2]|[H1 H2]].
      * split; [apply (jo_U _ _ _ _ J k), H1|exact H2].
      * split; [apply (Permutation_in _ PV), H1|]. intros H; apply H2, F2, H.
    + intros [H1 H2]. destruct (In_dec_s v (cvo t k)) as [Y|Y]; [left; auto|right; split; [|exact Y]].
      apply (Permutation_in _ (Permutation_sym PV)), H1.
Qed.

End Calib.
