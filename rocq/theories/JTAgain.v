(** Message passing on arbitrary join trees: after one complete pass a second
    one leaves all clique tables as they are.  No running intersection needed. *)
From Coq Require Import Field.
From Verif Require Import Base BaseFacts NDArray NDArrayFacts SumCalc Factor FactorFacts Exact Spec SpecFacts
  Order JoinTree HuginPure Hugin JTProof JTProof2.

Lemma same_edge_refl u v : same_edge u v (u, v) = true.
Proof. apply same_edge_spec; auto. Qed.

Lemma same_edge_other u v x y : u <> x -> u <> y -> same_edge u v (x, y) = false.
Proof.
  intros N1 N2. apply not_true_is_false. intros E. apply same_edge_spec in E as [E|E]; inversion E; subst; congruence.
Qed.

Lemma redges_below k cs u v : In (u, v) (redges (RT k cs)) -> In v (flat_map rkeys cs).
Proof.
  intros He. cbn [redges] in He. apply in_app_or in He as [He|He].
  - apply in_map_iff in He as (y & Ee & Hy). inversion Ee; subst. apply in_flat_map. exists y. split; [exact Hy|apply rkey_in].
  - apply in_flat_map in He as (y & Hy & He). apply redges_keys in He as [_ K]. apply in_flat_map; eauto.
Qed.

Lemma marginalize_known dom f vs h : wf_factor dom f -> marginalize f vs = Ok h -> incl vs (vorder f).
Proof.
  intros W. revert f W. unfold marginalize. induction vs as [|v vs IH]; intros f W E; [intros ? []|]. cbn in E.
  destruct (In_dec_s v (vorder f)) as [H|H].
  - destruct (marginalize1_spec dom f v W H) as (f1 & E1 & W1 & O1 & _). rewrite E1 in E. cbn in E.
    intros w [<-|Hw]; [exact H|]. specialize (IH f1 W1 E w Hw). rewrite O1 in IH. apply remove1_In in IH; [tauto|apply W].
  - rewrite (marginalize1_absent dom f v W H) in E. discriminate.
Qed.

Lemma finvert_trivial dom f : wf_factor dom f -> vorder f = [] -> feval f (fun _ => 0) = 0%Qc -> finvert f = Err FloatingPointError.
Proof.
  intros W E Z. unfold finvert. rewrite E. assert (P := wfa_rank0 _ (wf_arr _ _ W)). rewrite (wf_shape _ _ W), E in P.
  specialize (P eq_refl). unfold feval in Z. rewrite E in Z. cbn in Z. rewrite P. cbn [scalar data existsb]. rewrite Z. reflexivity.
Qed.

Section Again.
Context {SO : SetOrder}.
Variable dom : string -> list string.
Notation card := (FactorFacts.card dom).
Notation wf := (wf_factor dom).
Variable U : list string.
Hypothesis zero_range : inrange card U (fun _ => 0).
Notation rep := (rep dom U).

(** Tables over variables of [C] without negative entries. *)
Record okf (C : list string) (f : factor) : Prop := {
  ok_wf : wf f;
  ok_in : incl (vorder f) C;
  ok_U : incl C U;
  ok_nn : forall a, inrange card U a -> (0 <= feval f a)%Qc
}.

Lemma ok_rep C f : okf C f -> rep f (vorder f) (feval f).
Proof. intros O. split; [apply O|]. split; [tauto|]. split; [intros v Hv; apply (ok_U _ _ O), (ok_in _ _ O), Hv|reflexivity]. Qed.

Record good (t : jtree) : Prop := {
  gd_node : forall k c, dget k (tnodes t) = Some c -> NoDup (cvars c) /\ okf (cvars c) (cfac c);
  gd_edge : forall u v s, eget u v (tedges t) = Some s -> okf (svars s) (sfac s);
  gd_fit : forall u v s c, eget u v (tedges t) = Some s -> dget v (tnodes t) = Some c -> incl (svars s) (cvars c)
}.

Lemma gd_fit' t u v s c : good t -> eget u v (tedges t) = Some s -> dget u (tnodes t) = Some c -> incl (svars s) (cvars c).
Proof. intros G E. apply (gd_fit _ G v). rewrite eget_sym. exact E. Qed.

Lemma good_set_cfac t k c f : good t -> dget k (tnodes t) = Some c -> okf (cvars c) f -> good (set_cfac k f t).
Proof.
  intros [G1 G2 G3] E O. split.
  - intros k' c' E'. rewrite dget_set_cfac, E in E'. destruct (String.eqb k' k); [|eauto]. cbn in E'. inversion E'; subst. cbn.
    split; [apply (G1 k c E)|exact O].
  - rewrite tedges_set_cfac. exact G2.
  - rewrite tedges_set_cfac. intros u v s c' Es E'. rewrite dget_set_cfac, E in E'.
    destruct (String.eqb_spec v k) as [->|]; [|eauto]. cbn in E'. inversion E'; subst. cbn. eauto.
Qed.

Lemma good_set_sfac t u v s f : good t -> eget u v (tedges t) = Some s -> okf (svars s) f -> good (set_sfac u v f t).
Proof.
  intros [G1 G2 G3] E O. split.
  - rewrite tnodes_set_sfac. exact G1.
  - intros x y s' E'. rewrite eget_set_sfac, E in E'. destruct (same_edge x y (u, v)); [|eauto]. cbn in E'. inversion E'; subst. exact O.
  - rewrite tnodes_set_sfac. intros x y s' c E' Ec. rewrite eget_set_sfac, E in E'.
    destruct (same_edge x y (u, v)) eqn:SE; [|eauto]. cbn in E'. inversion E'; subst. cbn.
    apply same_edge_spec in SE as [SE|SE]; inversion SE; subst; [eauto|]. eapply G3; [|exact Ec]. rewrite eget_sym. exact E.
Qed.

(** What a successful message has done. *)
Record sent (ck cp : clique) (s : sepd) (new f : factor) : Prop := {
  st_cov : forall v, In v (cvars ck) -> ~ In v (svars s) -> In v (vorder (cfac ck));
  st_new : okf (svars s) new;
  st_scope : forall v, In v (vorder new) <-> In v (vorder (cfac ck)) /\ In v (svars s);
  st_sum : forall a, inrange card U a -> feval new a = sum_over card (minus (cvars ck) (svars s)) (feval (cfac ck)) a;
  st_old : incl (vorder (sfac s)) (vorder new);
  st_nz : vorder (sfac s) = [] -> feval (sfac s) (fun _ => 0) <> 0%Qc;
  st_f : okf (cvars cp) f;
  st_fscope : forall v, In v (vorder f) <-> In v (vorder (cfac cp)) \/ In v (vorder new);
  st_prod : forall a, inrange card U a -> feval f a = (feval (cfac cp) a * (feval new a / feval (sfac s) a))%Qc
}.

Lemma sum_nonneg C S F a : (forall a, inrange card U a -> (0 <= F a)%Qc) -> inrange card U a ->
  (0 <= sum_over card (minus C S) F a)%Qc.
Proof.
  intros N R. apply sum_over_nonneg. intros a' R' E'. apply N.
  intros v Hv. destruct (In_dec_s v (minus C S)) as [Y|Y]; [apply R', Y|]. rewrite E' by exact Y. apply R, Hv.
Qed.

Lemma Qcinv_nonneg x : (0 <= x)%Qc -> (0 <= / x)%Qc.
Proof.
  intros H. destruct (Qc_eq_dec x 0%Qc) as [->|N]; [discriminate|].
  destruct (Qclt_le_dec (/ x) 0) as [L|L]; [|exact L]. exfalso.
  assert (K : (x * / x = 1)%Qc) by (apply Qcmult_inv_r, N).
  assert (P : (0 < x)%Qc) by (apply Qcle_lt_or_eq in H as [H|H]; [exact H|congruence]).
  assert (Q : (/ x * x < 0 * x)%Qc) by (apply Qcmult_lt_compat_r; assumption).
  rewrite Qcmult_comm, K in Q. discriminate.
Qed.

Lemma send_sent k p t ck cp s t' : good t -> dget k (tnodes t) = Some ck -> dget p (tnodes t) = Some cp ->
  eget k p (tedges t) = Some s -> send k p t = (t', Ok tt) ->
  exists new f, t' = set_sfac k p new (set_cfac p f t) /\ sent ck cp s new f.
Proof.
  intros G Ek Ep Es E. assert (Sp := gd_fit _ G k p s cp Es Ep). assert (Sk := gd_fit' t k p s ck G Es Ek).
  destruct (gd_node _ G k ck Ek) as [Nk Ok_]. destruct (gd_node _ G p cp Ep) as [Np Op]. assert (Os := gd_edge _ G k p s Es).
  assert (Cov : forall v, In v (cvars ck) -> ~ In v (svars s) -> In v (vorder (cfac ck))).
  { intros v H1 H2. unfold send, dget_err in E. rewrite Ek, Es, Ep in E. cbn [rbind] in E.
    destruct (marginalize (cfac ck) (sdiff (cvars ck) (svars s))) as [h|] eqn:Em; [|discriminate].
    apply (marginalize_known dom) in Em; [|apply Ok_]. apply Em, sdiff_spec. auto. }
  destruct (rep_marg dom U (cfac ck) _ _ (cvars ck) (svars s) (ok_rep _ _ Ok_) Nk (ok_in _ _ Ok_) (ok_U _ _ Ok_) Cov) as (new & En & Rn).
  assert (SN : forall v, In v (vorder new) <-> In v (vorder (cfac ck)) /\ In v (svars s)).
  { intros v. rewrite (proj1 (proj2 Rn) v), filter_In, mem_In. tauto. }
  assert (Old : incl (vorder (sfac s)) (vorder new)).
  { destruct (subset (vorder (sfac s)) (vorder new)) eqn:Eu; [apply subset_spec; exact Eu|exfalso].
    unfold send, dget_err in E. rewrite Ek, Es, Ep in E. cbn [rbind] in E. rewrite En in E. cbn [rbind] in E.
    rewrite (fdiv_scope_error dom new (sfac s)) in E; [discriminate|apply Rn|apply Os|].
    intros I. apply subset_spec in I. congruence. }
  assert (Nz : vorder (sfac s) = [] -> feval (sfac s) (fun _ => 0) <> 0%Qc).
  { intros H1 H2. unfold send, dget_err in E. rewrite Ek, Es, Ep in E. cbn [rbind] in E. rewrite En in E. cbn [rbind] in E.
    unfold fdiv in E. rewrite (finvert_trivial dom _ (ok_wf _ _ Os) H1 H2) in E.
    destruct (subset _ _); discriminate. }
  destruct (rep_div dom U zero_range new _ _ (sfac s) _ _ Rn (ok_rep _ _ Os)) as (q & Eq & Rq).
  { intros v Hv. apply filter_In. rewrite mem_In. apply SN, Old, Hv. }
  { exact Nz. }
  destruct (rep_mul dom U (cfac cp) _ _ q _ _ (ok_rep _ _ Op) Rq) as (f & Ef & Rf & Xf).
  exists new, f. split.
  - unfold send, dget_err in E. rewrite Ek, Es, Ep in E. cbn [rbind] in E. rewrite En in E. cbn [rbind] in E.
    rewrite Eq in E. cbn [rbind] in E. rewrite Ef in E. inversion E; reflexivity.
  - assert (On : okf (svars s) new).
    { split; [apply Rn|intros v Hv; apply SN in Hv; tauto|apply Os|].
      intros a R. rewrite (proj2 (proj2 (proj2 Rn)) a R). apply sum_nonneg; [apply Ok_|exact R]. }
    assert (SF : forall v, In v (vorder f) <-> In v (vorder (cfac cp)) \/ In v (vorder new)).
    { intros v. rewrite (proj1 (proj2 Rf) v), in_app_iff, filter_In, mem_In, SN. tauto. }
    assert (Pf : forall a, inrange card U a -> feval f a = (feval (cfac cp) a * (feval new a / feval (sfac s) a))%Qc).
    { intros a R. rewrite (proj2 (proj2 (proj2 Rf)) a R), (proj2 (proj2 (proj2 Rn)) a R). reflexivity. }
    split; auto; [apply Rn|]. split; [apply Rf| |apply Op|].
    + intros v Hv. apply SF in Hv as [Hv|Hv]; [apply (ok_in _ _ Op), Hv|]. apply Sp, SN, Hv.
    + intros a R. rewrite Pf by exact R. apply Qcmult_nonneg; [apply Op, R|]. unfold Qcdiv.
      apply Qcmult_nonneg; [apply On, R|]. apply Qcinv_nonneg, Os, R.
Qed.

Lemma good_sent k p t ck cp s new f : good t -> dget p (tnodes t) = Some cp ->
  eget k p (tedges t) = Some s -> sent ck cp s new f -> good (set_sfac k p new (set_cfac p f t)).
Proof.
  intros G Ep Es S. apply (good_set_sfac _ k p s); [|rewrite tedges_set_cfac; exact Es|apply S].
  apply (good_set_cfac _ p cp); [exact G|exact Ep|apply S].
Qed.

Lemma good_send k p t : good t -> good (fst (send k p t)).
Proof.
  intros G. destruct (send k p t) as [t' [[]|e]] eqn:E; cbn [fst].
  - destruct (dget k (tnodes t)) as [ck|] eqn:Ek; [|unfold send, dget_err in E; rewrite Ek in E; discriminate].
    destruct (eget k p (tedges t)) as [s|] eqn:Es; [|unfold send, dget_err in E; rewrite Ek, Es in E; discriminate].
    destruct (dget p (tnodes t)) as [cp|] eqn:Ep.
    + destruct (send_sent k p t ck cp s t' G Ek Ep Es E) as (new & f & -> & S). eapply good_sent; eassumption.
    + unfold send, dget_err in E. rewrite Ek, Es, Ep in E. cbn [rbind] in E. destruct (marginalize _ _); discriminate.
  - assert (X : t' = t); [|rewrite X; exact G]. unfold send in E.
    match type of E with match ?x with Ok _ => _ | Err _ => _ end = _ => destruct x as [[? ?]|] end; inversion E; reflexivity.
Qed.

Lemma good_each {A} (f : A -> jtree -> jtree * res unit) l t : (forall x t, In x l -> good t -> good (fst (f x t))) ->
  good t -> good (fst (each f l t)).
Proof.
  revert t; induction l as [|x l IH]; intros t H G; cbn; [exact G|].
  assert (Hx := H x t (or_introl eq_refl) G). destruct (f x t) as [t' [u|e]]; cbn in Hx |- *; [|exact Hx].
  apply IH; [|exact Hx]. intros y t0 Hy. apply H; right; exact Hy.
Qed.

Lemma good_pull fuel : forall k p t, good t -> good (fst (pull fuel k p t)).
Proof.
  induction fuel as [|n IH]; intros k p t G; cbn [pull]; [exact G|].
  match goal with |- context [each ?f ?l t] => assert (E := good_each f l t (fun x t _ => IH x (Some k) t) G); destruct (each f l t) as [t' [u|e]] end.
  - cbn in E. destruct p as [[|]|]; [exact E| |exact E]. apply good_send, E.
  - exact E.
Qed.

Lemma good_push fuel : forall k p t, good t -> good (fst (push fuel k p t)).
Proof.
  induction fuel as [|n IH]; intros k p t G; cbn [push]; [exact G|].
  apply good_each; [|exact G]. intros x t0 _ G0. assert (S := good_send k x t0 G0). destruct (send k x t0) as [t' [u|e]]; cbn in S |- *; [|exact S].
  apply IH, S.
Qed.

Lemma good_valid x t : good t -> good (set_valid x t).
Proof. intros [A B C]. split; assumption. Qed.

Lemma good_calc t : good t -> good (fst (calculate_messages t)).
Proof.
  intros G. unfold calculate_messages. destruct (dkeys (tnodes t)) as [|root rest]; [exact G|].
  assert (P := good_pull (S (length (tnodes t))) root None t G).
  destruct (pull (S (length (tnodes t))) root None t) as [t1 [u|e]]; cbn in P.
  - assert (Q := good_push (S (length (tnodes t))) root None t1 P).
    destruct (push (S (length (tnodes t))) root None t1) as [t2 [u'|e]]; cbn in Q.
    + cbn [fst]. apply good_valid, Q.
    + destruct e; exact Q.
  - destruct e; exact P.
Qed.

Lemma good_marginals t Q : good t -> good (fst (tmarginals t Q)).
Proof.
  intros G. unfold tmarginals. assert (C := good_calc t G). destruct (tvalid t); cbn; [exact G|].
  destruct (calculate_messages t) as [t' [u|e]]; exact C.
Qed.

(** ** Edges after the inward and after the outward pass *)
Definition pulledE (t : jtree) (e : string * string) : Prop := exists cp cc s,
  dget (fst e) (tnodes t) = Some cp /\ dget (snd e) (tnodes t) = Some cc /\ eget (snd e) (fst e) (tedges t) = Some s /\
  (forall v, In v (cvars cc) -> ~ In v (svars s) -> In v (vorder (cfac cc))) /\
  (forall v, In v (vorder (sfac s)) <-> In v (vorder (cfac cc)) /\ In v (svars s)) /\
  (forall a, inrange card U a -> feval (sfac s) a = sum_over card (minus (cvars cc) (svars s)) (feval (cfac cc)) a) /\
  incl (vorder (sfac s)) (vorder (cfac cp)) /\
  (forall a, inrange card U a -> feval (sfac s) a = 0%Qc -> feval (cfac cp) a = 0%Qc).

Definition half (c : clique) (s : sepd) : Prop :=
  (forall v, In v (cvars c) -> ~ In v (svars s) -> In v (vorder (cfac c))) /\
  (forall v, In v (vorder (sfac s)) <-> In v (vorder (cfac c)) /\ In v (svars s)) /\
  (forall a, inrange card U a -> feval (sfac s) a = sum_over card (minus (cvars c) (svars s)) (feval (cfac c)) a).

Definition calibE (t : jtree) (e : string * string) : Prop := exists cp cc s,
  dget (fst e) (tnodes t) = Some cp /\ dget (snd e) (tnodes t) = Some cc /\ eget (snd e) (fst e) (tedges t) = Some s /\
  half cp s /\ half cc s.

Definition grows (p : string) (t t' : jtree) : Prop := forall c, dget p (tnodes t) = Some c ->
  exists c', dget p (tnodes t') = Some c' /\ incl (vorder (cfac c)) (vorder (cfac c')) /\
    forall a, inrange card U a -> feval (cfac c) a = 0%Qc -> feval (cfac c') a = 0%Qc.

Lemma grows_same p t t' : dget p (tnodes t') = dget p (tnodes t) -> grows p t t'.
Proof. intros E c Ec. exists c. rewrite E. split; [exact Ec|]. split; [apply incl_refl|auto]. Qed.

Lemma grows_trans p t1 t2 t3 : grows p t1 t2 -> grows p t2 t3 -> grows p t1 t3.
Proof.
  intros A B c Ec. destruct (A c Ec) as (c1 & E1 & I1 & Z1). destruct (B c1 E1) as (c2 & E2 & I2 & Z2).
  exists c2. split; [exact E2|]. split; [eapply incl_tran; eassumption|auto].
Qed.

Lemma pulledE_mono t t' e : pulledE t e -> grows (fst e) t t' -> dget (snd e) (tnodes t') = dget (snd e) (tnodes t) ->
  eget (snd e) (fst e) (tedges t') = eget (snd e) (fst e) (tedges t) -> pulledE t' e.
Proof.
  intros (cp & cc & s & H1 & H2 & H3 & H4 & H5 & H6 & H7 & H8) Gr En Ee. destruct (Gr cp H1) as (cp' & H1' & I & Z).
  exists cp', cc, s. rewrite En, Ee. split; [exact H1'|]. split; [exact H2|]. split; [exact H3|]. split; [exact H4|]. split; [exact H5|].
  split; [exact H6|]. split; [eapply incl_tran; eassumption|auto].
Qed.

Lemma calibE_same t t' e : calibE t e -> dget (fst e) (tnodes t') = dget (fst e) (tnodes t) ->
  dget (snd e) (tnodes t') = dget (snd e) (tnodes t) ->
  eget (snd e) (fst e) (tedges t') = eget (snd e) (fst e) (tedges t) -> calibE t' e.
Proof. unfold calibE. intros H -> -> ->. exact H. Qed.

(** Presence of nodes and edges depends on the structure only. *)
Definition has (t : jtree) (k : string) : Prop := exists c, dget k (tnodes t) = Some c.
Definition hase (t : jtree) (u v : string) : Prop := exists s, eget u v (tedges t) = Some s.

Lemma has_skel t t' k : skel t' = skel t -> has t k -> has t' k.
Proof.
  intros E (c & Ec). assert (K := dget_vars k t'). rewrite (skel_vars _ _ E), dget_vars, Ec in K. cbn in K.
  destruct (dget k (tnodes t')) as [c'|] eqn:E'; [exists c'; exact E'|discriminate].
Qed.
Lemma hase_skel t t' u v : skel t' = skel t -> hase t u v -> hase t' u v.
Proof.
  intros E (c & Ec). assert (K := sget_seps u v t'). rewrite (skel_seps _ _ E), sget_seps, Ec in K. cbn in K.
  destruct (eget u v (tedges t')) as [c'|] eqn:E'; [exists c'; exact E'|discriminate].
Qed.

Lemma send_frame k p t t' : send k p t = (t', Ok tt) -> frame t t' [p] [k; p].
Proof.
  unfold send. match goal with |- match ?x with Ok _ => _ | Err _ => _ end = _ -> _ => destruct x as [[new f]|] end; [|discriminate].
  intros E; inversion E. apply frame_send.
Qed.

(** A message towards the root. *)
Lemma send_up k p t t' : good t -> k <> p -> has t k -> has t p -> hase t k p -> send k p t = (t', Ok tt) ->
  pulledE t' (p, k) /\ grows p t t'.
Proof.
  intros G N (ck & Ek) (cp & Ep) (s & Es) E. destruct (send_sent k p t ck cp s t' G Ek Ep Es E) as (new & f & -> & S).
  assert (Ep' := send_node k p new f t cp Ep). assert (Es' := send_edge k p new f t s Es).
  assert (Ek' : dget k (tnodes (set_sfac k p new (set_cfac p f t))) = Some ck).
  { rewrite tnodes_set_sfac, dget_set_cfac, eqb_neq_s by exact N. exact Ek. }
  split.
  - exists (mkC (cvars cp) f), ck, (mkS (svars s) new). cbn [fst snd svars sfac cvars cfac].
    split; [exact Ep'|]. split; [exact Ek'|]. split; [exact Es'|]. split; [apply S|]. split; [apply S|]. split; [apply S|].
    split; [intros v Hv; apply (st_fscope _ _ _ _ _ S); auto|].
    intros a R Z. rewrite (st_prod _ _ _ _ _ S a R), Z. unfold Qcdiv. ring.
  - intros c Ec. rewrite Ep in Ec. inversion Ec; subst. exists (mkC (cvars c) f). split; [exact Ep'|]. cbn [cfac].
    split; [intros v Hv; apply (st_fscope _ _ _ _ _ S); auto|].
    intros a R Z. rewrite (st_prod _ _ _ _ _ S a R), Z. ring.
Qed.

(** A message away from the root. *)
Lemma send_down p c t t' : good t -> p <> c -> pulledE t (p, c) -> send p c t = (t', Ok tt) ->
  calibE t' (p, c) /\ grows c t t'.
Proof.
  intros G N (cp & cc & s & Ep & Ec & Es & Cc & Sc & Vc & Ip & Zp) E. cbn [fst snd] in *.
  assert (Es0 : eget p c (tedges t) = Some s) by (rewrite eget_sym; exact Es).
  destruct (send_sent p c t cp cc s t' G Ep Ec Es0 E) as (new & f & -> & S).
  assert (Ec' := send_node p c new f t cc Ec). assert (Es' := send_edge p c new f t s Es0).
  assert (Ep' : dget p (tnodes (set_sfac p c new (set_cfac c f t))) = Some cp).
  { rewrite tnodes_set_sfac, dget_set_cfac, eqb_neq_s by exact N. exact Ep. }
  assert (Os := gd_edge _ G _ _ _ Es). destruct (gd_node _ G _ _ Ec) as [Nc Oc]. destruct (gd_node _ G _ _ Ep) as [Np Op].
  split.
  - exists cp, (mkC (cvars cc) f), (mkS (svars s) new). cbn [fst snd].
    split; [exact Ep'|]. split; [exact Ec'|]. split; [rewrite eget_sym; exact Es'|]. split.
    + split; [apply S|]. split; [apply S|]. apply S.
    + split; [|split]; cbn [cvars svars cfac sfac].
      * intros v H1 H2. apply (st_fscope _ _ _ _ _ S). left. auto.
      * intros v. rewrite (st_fscope _ _ _ _ _ S), (st_scope _ _ _ _ _ S). split; [tauto|].
        intros [[H1|H1] H2]; [|tauto]. split; [|exact H2]. apply Ip, Sc. auto.
      * intros a R.
        assert (Ra : forall a', inrange card (minus (cvars cc) (svars s)) a' -> (forall v, ~ In v (minus (cvars cc) (svars s)) -> a' v = a v) -> inrange card U a').
        { intros a' R' E' v Hv. destruct (In_dec_s v (minus (cvars cc) (svars s))) as [Y|Y]; [apply R', Y|]. rewrite E' by exact Y. apply R, Hv. }
        rewrite (sum_over_ext_in card _ (feval f) (fun a' => feval (cfac cc) a' * (feval new a' / feval (sfac s) a'))%Qc).
        2:{ intros a' R' E'. apply (st_prod _ _ _ _ _ S), (Ra a' R' E'). }
        rewrite (sum_over_mult_r card _ (svars s) (fun a' => feval new a' / feval (sfac s) a')%Qc).
        -- rewrite <- Vc by exact R. destruct (Qc_eq_dec (feval (sfac s) a) 0%Qc) as [Z|Z].
           ++ rewrite Z, Qcmult_0_l. rewrite (st_sum _ _ _ _ _ S a R). apply sum_over_zero. intros a' R' E'.
              apply Zp.
              ** intros v Hv. destruct (In_dec_s v (minus (cvars cp) (svars s))) as [Y|Y]; [apply R', Y|]. rewrite E' by exact Y. apply R, Hv.
              ** rewrite <- Z. apply feval_deps. intros v Hv. apply E'. rewrite minus_In. intros [_ K]. apply K, (ok_in _ _ Os), Hv.
           ++ field. exact Z.
        -- intros a1 a2 E12. rewrite (feval_deps new a1 a2), (feval_deps (sfac s) a1 a2); [reflexivity| |]; intros v Hv; apply E12;
             [apply (ok_in _ _ Os), Hv|apply (ok_in _ _ (st_new _ _ _ _ _ S)), Hv].
        -- intros v Hv K. apply minus_In in K. tauto.
  - intros c0 E0. rewrite Ec in E0. inversion E0; subst. exists (mkC (cvars c0) f). split; [exact Ec'|]. cbn [cfac].
    split; [intros v Hv; apply (st_fscope _ _ _ _ _ S); auto|].
    intros a R Z. rewrite (st_prod _ _ _ _ _ S a R), Z. ring.
Qed.

(** ** The inward pass *)
Lemma frame_has t t' Kn Ke k : frame t t' Kn Ke -> has t k -> has t' k.
Proof. intros F. apply has_skel, F. Qed.
Lemma frame_hase t t' Kn Ke u v : frame t t' Kn Ke -> hase t u v -> hase t' u v.
Proof. intros F. apply hase_skel, F. Qed.

(** All nodes and edges of [x] are there. *)
Definition there (t : jtree) (x : rtree) : Prop :=
  (forall k, In k (rkeys x) -> has t k) /\ forall e, In e (redges x) -> hase t (snd e) (fst e).

Lemma there_skel t t' x : skel t' = skel t -> there t x -> there t' x.
Proof. intros E [A B]. split; intros; [eapply has_skel|eapply hase_skel]; eauto. Qed.

Lemma there_child t k cs c : there t (RT k cs) -> In c cs -> there t c.
Proof.
  intros [A B] Hc. split; intros.
  - apply A. cbn. right. apply in_flat_map; eauto.
  - apply B. eapply redges_sub; eassumption.
Qed.

Definition pull_done (x : rtree) : Prop := forall fuel p t t',
  adjok (tadj t) (Some p) x -> NoDup (p :: rkeys x) -> p <> "" -> ~ In "" (rkeys x) -> good t ->
  there t x -> has t p -> hase t (rkey x) p -> pull fuel (rkey x) (Some p) t = (t', Ok tt) ->
  frame t t' (p :: rkeys x) (p :: rkeys x) /\ grows p t t' /\ good t' /\
  forall e, In e ((p, rkey x) :: redges x) -> pulledE t' e.

Lemma pulled_kept t t' x Kn Ke : frame t t' Kn Ke -> (forall k, In k (rkeys x) -> ~ In k Kn /\ ~ In k Ke) ->
  (forall e, In e (redges x) -> pulledE t e) -> forall e, In e (redges x) -> pulledE t' e.
Proof.
  intros F D H [k c] He. destruct (redges_keys _ _ _ He) as [Hk Hc]. apply (pulledE_mono t); cbn [fst snd].
  - apply H, He. - apply grows_same. apply F, D, Hk. - apply F, D, Hc. - apply F, D, Hc.
Qed.

Lemma pull_children k cs : Forall pull_done cs -> forall fuel t t',
  Forall (adjok (tadj t) (Some k)) cs -> NoDup (k :: flat_map rkeys cs) -> k <> "" -> ~ In "" (flat_map rkeys cs) -> good t ->
  (forall c, In c cs -> there t c /\ hase t (rkey c) k) -> has t k ->
  each (fun x => pull fuel x (Some k)) (map rkey cs) t = (t', Ok tt) ->
  frame t t' (k :: flat_map rkeys cs) (k :: flat_map rkeys cs) /\ grows k t t' /\ good t' /\
  forall e, In e (redges (RT k cs)) -> pulledE t' e.
Proof.
  induction 1 as [|c cs Hc Hcs IH]; intros fuel t t' Ad ND Nk Ne G Th Hk E; cbn [map each] in E.
  - inversion E; subst. split; [apply frame_refl|]. split; [apply grows_same; reflexivity|]. split; [exact G|]. intros e [].
  - destruct (pull fuel (rkey c) (Some k) t) as [t1 [[]|]] eqn:E1; [|discriminate].
    inversion Ad as [|? ? A1 A2]; subst. cbn [flat_map] in ND, Ne.
    inversion ND as [|? ? N1 N2]; subst. assert (N3 := NoDup_app_l _ _ N2). assert (N4 := NoDup_app_r _ _ N2).
    destruct (Th c (or_introl eq_refl)) as [Tc Ec].
    destruct (Hc fuel k t t1) as (F1 & Gr1 & G1 & P1); auto.
    { constructor; [|exact N3]. intros K. apply N1, in_or_app; auto. }
    { intros K. apply Ne, in_or_app; auto. }
    destruct (IH fuel t1 t') as (F2 & Gr2 & G2 & P2); auto.
    { rewrite (skel_adj _ _ (fr_skel _ _ _ _ F1)). exact A2. }
    { constructor; [|exact N4]. intros K. apply N1, in_or_app; auto. }
    { intros K. apply Ne, in_or_app; auto. }
    { intros c' Hc'. destruct (Th c' (or_intror Hc')) as [Tc' Ec'].
      split; [eapply there_skel; [apply F1|exact Tc']|eapply frame_hase; eassumption]. }
    { eapply frame_has; eassumption. }
    assert (Dis : forall x, In x (rkeys c) -> ~ In x (k :: flat_map rkeys cs)).
    { intros x Hx [<-|K]; [apply N1, in_or_app; auto|]. eapply NoDup_app_no; eassumption. }
    split; [|split; [|split]].
    + eapply frame_trans; [eapply frame_incl; [exact F1| |]|eapply frame_incl; [exact F2| |]];
        intros x [<-|Hx]; try (left; reflexivity); right; apply in_or_app; auto.
    + eapply grows_trans; eassumption.
    + exact G2.
    + intros e He. cbn [redges map flat_map] in He. cbn [app] in He. destruct He as [<-|He].
      * apply (pulledE_mono t1); cbn [fst snd].
        -- apply P1. left; reflexivity.
        -- exact Gr2.
        -- apply F2, Dis, rkey_in.
        -- apply F2, Dis, rkey_in.
      * apply in_app_or in He as [He|He]; [apply P2; cbn [redges]; apply in_or_app; auto|].
        apply in_app_or in He as [He|He]; [|apply P2; cbn [redges]; apply in_or_app; auto].
        apply (pulled_kept t1 t' c _ _ F2); [intros x Hx; split; apply Dis, Hx| |exact He].
        intros e' He'. apply P1. right; exact He'.
Qed.

Lemma pull_all x : pull_done x.
Proof.
  induction x as [k cs IH] using rtree_ind'. intros fuel p t t' Ad ND Np Ne G Th Hp He E.
  destruct fuel as [|fuel]; [discriminate|]. cbn [pull rkey] in E. inversion Ad as [? ? ? Af Ac]; subst. rewrite Af in E.
  destruct (each (fun x => pull fuel x (Some k)) (map rkey cs) t) as [t1 [[]|]] eqn:E1; [|discriminate].
  cbn [rkeys] in ND, Ne. inversion ND as [|? ? N1 N2]; subst.
  assert (Nk : k <> "") by (intros ->; apply Ne; left; reflexivity).
  destruct (pull_children k cs IH fuel t t1) as (F1 & Gr1 & G1 & P1); auto.
  { intros K. apply Ne; right; exact K. }
  { intros c Hc. split; [eapply there_child; eassumption|]. apply (proj2 Th (k, rkey c)), redges_in, Hc. }
  { apply Th. left; reflexivity. }
  destruct p as [|ch p']; [congruence|]. set (p := String ch p') in *.
  assert (Nkp : k <> p) by (intros ->; apply N1; left; reflexivity).
  assert (F2 := send_frame k p t1 t' E).
  assert (Hk1 : has t1 k) by (eapply frame_has; [exact F1|]; apply Th; left; reflexivity).
  assert (Hp1 : has t1 p) by (eapply frame_has; eassumption).
  assert (He1 : hase t1 k p) by (eapply frame_hase; eassumption).
  destruct (send_up k p t1 t' G1 Nkp Hk1 Hp1 He1 E) as [P2 Gr2].
  split; [|split; [|split]].
  - eapply frame_trans; [eapply frame_incl; [exact F1| |]|eapply frame_incl; [exact F2| |]]; cbn [rkeys].
    + apply incl_tl, incl_refl. + apply incl_tl, incl_refl.
    + intros x [<-|[]]. left; reflexivity. + intros x [<-|[<-|[]]]; [right; left|left]; reflexivity.
  - eapply grows_trans; [|exact Gr2]. apply grows_same. apply F1. exact N1.
  - assert (X := good_send k p t1 G1). rewrite E in X. exact X.
  - intros e [<-|He']; [exact P2|]. assert (He0 := He'). destruct e as [u v].
    apply (pulledE_mono t1); cbn [fst snd]; [apply P1, He'| | |].
    + apply grows_same, F2. intros [<-|[]]. apply redges_keys in He' as [K _]. apply N1, K.
    + apply F2. intros [<-|[]]. apply redges_keys in He' as [_ K]. apply N1, K.
    + apply F2. intros [<-|[<-|[]]].
      * inversion N2 as [|? ? N3 N4]; subst. apply N3, (redges_below _ _ _ _ He').
      * apply redges_keys in He0 as [_ K]. apply N1, K.
Qed.

(** ** The outward pass *)
Definition push_done (x : rtree) : Prop := forall fuel p t t',
  adjok (tadj t) p x -> NoDup (rkeys x) -> good t ->
  (forall e, In e (redges x) -> pulledE t e) -> push fuel (rkey x) p t = (t', Ok tt) ->
  frame t t' (tl (rkeys x)) (rkeys x) /\ good t' /\ forall e, In e (redges x) -> calibE t' e.

Lemma calib_kept t t' x Kn Ke : frame t t' Kn Ke -> (forall k, In k (rkeys x) -> ~ In k Kn /\ ~ In k Ke) ->
  (forall e, In e (redges x) -> calibE t e) -> forall e, In e (redges x) -> calibE t' e.
Proof.
  intros F D H [k c] He. destruct (redges_keys _ _ _ He) as [Hk Hc]. apply (calibE_same t); cbn [fst snd].
  - apply H, He. - apply F, D, Hk. - apply F, D, Hc. - apply F, D, Hc.
Qed.

Lemma push_children k cs : Forall push_done cs -> forall fuel t t',
  Forall (adjok (tadj t) (Some k)) cs -> NoDup (k :: flat_map rkeys cs) -> good t ->
  (forall e, In e (redges (RT k cs)) -> pulledE t e) ->
  each (fun x t => match send k x t with (t', Ok _) => push fuel x (Some k) t' | (t', Err e) => (t', Err e) end) (map rkey cs) t = (t', Ok tt) ->
  frame t t' (flat_map rkeys cs) (k :: flat_map rkeys cs) /\ good t' /\
  forall e, In e (redges (RT k cs)) -> calibE t' e.
Proof.
  induction 1 as [|c cs Hc Hcs IH]; intros fuel t t' Ad ND G Pu E; cbn [map each] in E.
  - inversion E; subst. split; [apply frame_refl|]. split; [exact G|]. intros e [].
  - destruct (send k (rkey c) t) as [t1 [[]|]] eqn:E1; [|discriminate].
    destruct (push fuel (rkey c) (Some k) t1) as [t2 [[]|]] eqn:E2; [|discriminate].
    inversion Ad as [|? ? A1 A2]; subst. cbn [flat_map] in ND.
    inversion ND as [|? ? N1 N2]; subst. assert (N3 := NoDup_app_l _ _ N2). assert (N4 := NoDup_app_r _ _ N2).
    assert (Nkc : k <> rkey c) by (intros K; apply N1, in_or_app; left; rewrite K; apply rkey_in).
    assert (Pc : pulledE t (k, rkey c)) by (apply Pu; left; reflexivity).
    destruct (send_down k (rkey c) t t1 G Nkc Pc E1) as [C1 Gr1].
    assert (F1 := send_frame k (rkey c) t t1 E1).
    assert (G1 : good t1) by (assert (X := good_send k (rkey c) t G); rewrite E1 in X; exact X).
    destruct c as [x xs]. cbn [rkey] in *.
    assert (N5 : ~ In x (flat_map rkeys xs)) by (cbn in N3; inversion N3; assumption).
    assert (Below : forall u v, In (u, v) (redges (RT x xs)) -> In v (flat_map rkeys xs)).
    { intros u v. apply redges_below. }
    assert (Nkx : forall v, In v (flat_map rkeys xs) -> v <> k /\ v <> x).
    { intros v Hv. split; intros ->; [apply N1, in_or_app; left; cbn; auto|contradiction]. }
    destruct (Hc fuel (Some k) t1 t2) as (F2 & G2 & C2); auto.
    { rewrite (skel_adj _ _ (fr_skel _ _ _ _ F1)). exact A1. }
    { intros [u v] He. assert (Hv := Nkx v (Below u v He)). apply (pulledE_mono t); cbn [fst snd].
      - apply Pu. cbn [redges map flat_map]. right. apply in_or_app; right. apply in_or_app; auto.
      - destruct (String.eqb_spec u x) as [->|Nu]; [exact Gr1|]. apply grows_same, F1. intros [K|[]]; congruence.
      - apply F1. intros [K|[]]. destruct Hv; congruence.
      - apply F1. intros [K|[K|[]]]; destruct Hv; congruence. }
    cbn [rkeys tl] in F2.
    destruct (IH fuel t2 t') as (F3 & G3 & C3); auto.
    { rewrite (skel_adj _ _ (fr_skel _ _ _ _ F2)), (skel_adj _ _ (fr_skel _ _ _ _ F1)). exact A2. }
    { constructor; [|exact N4]. intros K. apply N1, in_or_app; auto. }
    { assert (Dis : forall v, In v (flat_map rkeys cs) -> v <> x /\ ~ In v (flat_map rkeys xs) /\ v <> k).
      { intros v Hv. split; [|split]; [intros ->|intros K|intros ->].
        - eapply (NoDup_app_no _ _ x N2); [left; reflexivity|exact Hv].
        - eapply (NoDup_app_no _ _ v N2); [right; exact K|exact Hv].
        - apply N1, in_or_app; auto. }
      assert (Bl : forall u v, In (u, v) (redges (RT k cs)) -> In v (flat_map rkeys cs) /\ (u = k \/ In u (flat_map rkeys cs))).
      { intros u v He. cbn [redges] in He. apply in_app_or in He as [He|He].
        - apply in_map_iff in He as (y & Ee & Hy). inversion Ee; subst. split; [|auto]. apply in_flat_map. exists y. split; [exact Hy|apply rkey_in].
        - apply in_flat_map in He as (y & Hy & He). apply redges_keys in He as [K1 K2]. split; [|right]; apply in_flat_map; eauto. }
      intros [u v] He. destruct (Bl u v He) as [Hv Hu]. destruct (Dis v Hv) as (D1 & D2 & D3).
      assert (Ou : dget u (tnodes t2) = dget u (tnodes t)).
      { transitivity (dget u (tnodes t1)).
        - apply F2. destruct Hu as [->|Hu]; [intros K; destruct (Nkx _ K); congruence|apply (Dis u Hu)].
        - apply F1. destruct Hu as [->|Hu]; [intros [K|[]]; congruence|]. intros [K|[]]. destruct (Dis u Hu); congruence. }
      apply (pulledE_mono t); cbn [fst snd].
      - apply Pu. cbn [redges] in He |- *. cbn [map flat_map app]. right.
        apply in_app_or in He as [He|He]; apply in_or_app; [left; exact He|right; apply in_or_app; auto].
      - apply grows_same, Ou.
      - transitivity (dget v (tnodes t1)); [apply F2; exact D2|apply F1; intros [K|[]]; congruence].
      - transitivity (eget v u (tedges t1)); [apply F2; intros [K|K]; [congruence|contradiction]|].
        apply F1; intros [K|[K|[]]]; congruence. }
    assert (Dis : forall v, In v (rkeys (RT x xs)) -> ~ In v (flat_map rkeys cs) /\ ~ In v (k :: flat_map rkeys cs)).
    { intros v Hv. assert (K1 : ~ In v (flat_map rkeys cs)) by (intros K; eapply (NoDup_app_no _ _ v N2); [exact Hv|exact K]).
      split; [exact K1|]. intros [<-|K]; [apply N1, in_or_app; auto|contradiction]. }
    assert (Nkcs : ~ In k (flat_map rkeys cs)) by (intros K; apply N1, in_or_app; auto).
    split; [|split].
    + cbn [flat_map rkeys app]. eapply frame_trans; [eapply frame_incl; [exact F1| |]|eapply frame_trans; [eapply frame_incl; [exact F2| |]|eapply frame_incl; [exact F3| |]]].
      * intros y [<-|[]]. left; reflexivity.
      * intros y [<-|[<-|[]]]; [left; reflexivity|right; left; reflexivity].
      * intros y Hy. right. apply in_or_app; auto.
      * intros y [<-|Hy]; right; [left; reflexivity|right; apply in_or_app; auto].
      * intros y Hy. right. apply in_or_app; auto.
      * intros y [<-|Hy]; [left; reflexivity|right; right; apply in_or_app; auto].
    + exact G3.
    + intros e He. cbn [redges map flat_map rkey app] in He. destruct He as [<-|He].
      * apply (calibE_same t1); cbn [fst snd]; [exact C1| | |].
        -- transitivity (dget k (tnodes t2)); [apply F3, Nkcs|apply F2]. intros K. destruct (Nkx _ K); congruence.
        -- transitivity (dget x (tnodes t2)); [apply F3, Dis; left; reflexivity|apply F2, N5].
        -- transitivity (eget x k (tedges t2)); [apply F3, Dis; left; reflexivity|].
           rewrite !(eget_sym x k). apply F2. intros [K|K]; [congruence|]. destruct (Nkx _ K); congruence.
      * apply in_app_or in He as [He|He]; [apply C3; cbn [redges]; apply in_or_app; auto|].
        apply in_app_or in He as [He|He]; [|apply C3; cbn [redges]; apply in_or_app; auto].
        apply (calib_kept t2 t' (RT x xs) _ _ F3); [exact Dis|exact C2|exact He].
Qed.

Lemma push_all x : push_done x.
Proof.
  induction x as [k cs IH] using rtree_ind'. intros fuel p t t' Ad ND G Pu E.
  destruct fuel as [|fuel]; [discriminate|]. cbn [push rkey] in E. inversion Ad as [? ? ? Af Ac]; subst. rewrite Af in E.
  apply (push_children k cs IH fuel t t'); assumption.
Qed.

(** Rooted trees inside a join tree; the rest of the graph is out of reach. *)
Record rooted (t : jtree) (r : rtree) : Prop := {
  rt_root : exists rest, dkeys (tnodes t) = rkey r :: rest;
  rt_nodup : NoDup (rkeys r);
  rt_ne : ~ In "" (rkeys r);
  rt_adj : adjok (tadj t) None r;
  rt_there : there t r;
  rt_size : length (rkeys r) <= length (tnodes t)
}.

Lemma rooted_skel t t' r : skel t' = skel t -> rooted t r -> rooted t' r.
Proof.
  intros E [A B C D F H]. split; try assumption.
  - rewrite (skel_keys _ _ E). exact A.
  - rewrite (skel_adj _ _ E). exact D.
  - eapply there_skel; eassumption.
  - assert (K := f_equal (@length _) (skel_keys _ _ E)). unfold dkeys in K. rewrite !map_length in K. rewrite K. exact H.
Qed.

Definition calib (t : jtree) (r : rtree) : Prop := forall e, In e (redges r) -> calibE t e.

Lemma calculate_calib t r : good t -> rooted t r ->
  tvalid t = false -> tvalid (fst (calculate_messages t)) = true -> calib (fst (calculate_messages t)) r.
Proof.
  intros G R V0. destruct (rt_root _ _ R) as (rest & Er). unfold calculate_messages. rewrite Er.
  destruct r as [k cs]. cbn [rkey] in *. set (n := length (tnodes t)).
  assert (Ad := rt_adj _ _ R). inversion Ad as [? ? ? Af Ac]; subst.
  assert (VP := fun t1 e => f_equal tvalid (f_equal fst (e : pull (S n) k None t = t1))).
  assert (Vp : forall fuel k p t, tvalid (fst (pull fuel k p t)) = tvalid t /\ tvalid (fst (push fuel k p t)) = tvalid t).
  { clear. assert (VS : forall k p t, tvalid (fst (send k p t)) = tvalid t).
    { intros k p t. unfold send. match goal with |- context [match ?x with Ok _ => _ | Err _ => _ end] => destruct x as [[new f]|] end; [|reflexivity].
      cbn [fst]. unfold set_sfac, set_cfac. destruct (dget p (tnodes t)); cbn; destruct (eget k p (tedges t)); reflexivity. }
    assert (VE : forall (f : string -> jtree -> jtree * res unit) l t, (forall x t, tvalid (fst (f x t)) = tvalid t) -> tvalid (fst (each f l t)) = tvalid t).
    { intros f l. induction l as [|x l IH]; intros t H; cbn; [reflexivity|]. assert (Hx := H x t).
      destruct (f x t) as [t' [u|e]]; cbn in Hx |- *; [|exact Hx]. rewrite IH by exact H. exact Hx. }
    induction fuel as [|n IH]; intros k p t; cbn [pull push]; [auto|]. split.
    - match goal with |- context [each ?f ?l t] => assert (E := VE f l t (fun x t => proj1 (IH x (Some k) t))); destruct (each f l t) as [t' [u|e]] end; [|exact E].
      cbn in E. destruct p as [[|]|]; [exact E| |exact E]. rewrite VS. exact E.
    - apply VE. intros x t0. assert (S := VS k x t0). destruct (send k x t0) as [t' [u|e]]; cbn in S |- *; [|exact S].
      rewrite (proj2 (IH _ _ _)). exact S. }
  destruct (pull (S n) k None t) as [t1 [[]|e1]] eqn:E1.
  2:{ assert (X := proj1 (Vp (S n) k None t)). rewrite E1 in X. cbn in X. rewrite V0 in X. destruct e1; cbn; congruence. }
  assert (V1 : tvalid t1 = false) by (assert (X := proj1 (Vp (S n) k None t)); rewrite E1 in X; cbn in X; congruence).
  destruct (push (S n) k None t1) as [t2 [[]|e2]] eqn:E2.
  2:{ assert (X := proj2 (Vp (S n) k None t1)). rewrite E2 in X. cbn in X. rewrite V1 in X. destruct e2; cbn; congruence. }
  intros _. cbn [fst]. cbn [pull] in E1. rewrite Af in E1.
  destruct (each (fun x => pull n x (Some k)) (map rkey cs) t) as [t1' [[]|]] eqn:E1'; [|discriminate]. inversion E1; subst t1'.
  assert (ND := rt_nodup _ _ R). cbn [rkeys] in ND.
  destruct (pull_children k cs (proj2 (Forall_forall _ _) (fun c _ => pull_all c)) n t t1) as (F1 & _ & G1 & P1); auto.
  { intros ->. apply (rt_ne _ _ R). left; reflexivity. }
  { intros K. apply (rt_ne _ _ R). right; exact K. }
  { intros c Hc. split; [eapply there_child; [apply R|exact Hc]|]. apply (proj2 (rt_there _ _ R) (k, rkey c)), redges_in, Hc. }
  { apply (rt_there _ _ R). left; reflexivity. }
  destruct (push_all (RT k cs) (S n) None t1 t2) as (_ & _ & C); auto.
  rewrite (skel_adj _ _ (fr_skel _ _ _ _ F1)). exact Ad.
Qed.

(** ** The second pass *)
Section Second.
Variables (t0 : jtree) (r : rtree).
Hypothesis R0 : rooted t0 r.
Hypothesis G0 : good t0.
Hypothesis C0 : calib t0 r.

Definition Inv2 (t : jtree) : Prop := tnodes t = tnodes t0 /\ tadj t = tadj t0 /\ tvalid t = tvalid t0 /\ good t /\ calib t r.

(** Separators that are the factor 0 without variables. *)
Definition zero_sep (t : jtree) : Prop := exists e s, In e (redges r) /\ eget (snd e) (fst e) (tedges t) = Some s /\
  vorder (sfac s) = [] /\ feval (sfac s) (fun _ => 0) = 0%Qc.

Definition fine (t : jtree) (x : res unit) : Prop := x = Ok tt \/ x = Err FloatingPointError /\ zero_sep t.

Lemma wf_no_vals f : wf f -> vorder f = [] -> fvals f = [].
Proof.
  intros W E. destruct (fvals f) as [|[v l] d] eqn:F; [reflexivity|]. exfalso.
  assert (K : In v (vorder f)) by (apply (wf_keys _ _ W); rewrite F; left; reflexivity). rewrite E in K. exact K.
Qed.

Lemma feval_zero_any f C a : okf C f -> vorder f = [] -> feval f a = feval f (fun _ => 0).
Proof. intros O E. apply feval_deps. rewrite E. intros v []. Qed.

Lemma half_zero c s y : NoDup (cvars c) -> okf (cvars c) (cfac c) -> half c s -> inrange card U y -> feval (sfac s) y = 0%Qc -> feval (cfac c) y = 0%Qc.
Proof.
  intros N O (_ & _ & H) R Z. rewrite (H y R) in Z.
  refine (sum_over_zero_terms card (minus (cvars c) (svars s)) (feval (cfac c)) (feval_ext _) _ y _ Z y _ _).
  - apply minus_NoDup, N.
  - intros a' R' E'. apply O. intros v Hv. destruct (In_dec_s v (minus (cvars c) (svars s))) as [Y|Y]; [apply R', Y|]. rewrite E' by exact Y. apply R, Hv.
  - intros v Hv. apply R, (ok_U _ _ O). apply minus_In in Hv; tauto.
  - reflexivity.
Qed.

Lemma send_twice x y e t : In e (redges r) -> (x, y) = e \/ (y, x) = e -> Inv2 t ->
  exists t' u, send x y t = (t', u) /\ Inv2 t' /\ fine t u.
Proof.
  intros He Hxy (IN & IA & IV & G & C). destruct (C e He) as (cp & cc & s & Ep & Ec & Es & Hp & Hc).
  assert (X : exists cx cy, dget x (tnodes t) = Some cx /\ dget y (tnodes t) = Some cy /\ eget x y (tedges t) = Some s /\ half cx s /\ half cy s).
  { destruct Hxy as [<-|<-]; cbn [fst snd] in *; [exists cp, cc; rewrite (eget_sym x y)|exists cc, cp]; auto 10. }
  destruct X as (cx & cy & Ex & Ey & Exy & Hx & Hy).
  destruct (gd_node _ G _ _ Ex) as [Nx Ox]. destruct (gd_node _ G _ _ Ey) as [Ny Oy]. assert (Os := gd_edge _ G _ _ _ Exy).
  destruct (Hx) as (Covx & Scx & Sumx).
  destruct (rep_marg dom U (cfac cx) _ _ (cvars cx) (svars s) (ok_rep _ _ Ox) Nx (ok_in _ _ Ox) (ok_U _ _ Ox) Covx) as (new & En & Rn).
  assert (SN : forall v, In v (vorder new) <-> In v (vorder (sfac s))).
  { intros v. rewrite (proj1 (proj2 Rn) v), filter_In, mem_In, Scx. tauto. }
  assert (Vn : forall a, inrange card U a -> feval new a = feval (sfac s) a).
  { intros a R. rewrite (proj2 (proj2 (proj2 Rn)) a R), Sumx by exact R. reflexivity. }
  assert (D : vorder (sfac s) = [] /\ feval (sfac s) (fun _ => 0) = 0%Qc \/ (vorder (sfac s) = [] -> feval (sfac s) (fun _ => 0) <> 0%Qc)).
  { destruct (Qc_eq_dec (feval (sfac s) (fun _ => 0)) 0%Qc) as [Z|Z]; [|right; intros _; exact Z].
    destruct (vorder (sfac s)); [left; auto|right; discriminate]. }
  destruct D as [[Ev Z]|T].
  { exists t, (Err FloatingPointError). split; [|split; [split; auto|right; split; [reflexivity|]]].
    - unfold send, dget_err. rewrite Ex, Exy, Ey. cbn [rbind]. rewrite En. cbn [rbind]. unfold fdiv.
      rewrite (finvert_trivial dom _ (ok_wf _ _ Os) Ev Z). rewrite (wf_no_vals (sfac s) (ok_wf _ _ Os) Ev). reflexivity.
    - exists e, s. auto. }
  destruct (rep_div dom U zero_range new _ _ (sfac s) _ _ Rn (ok_rep _ _ Os)) as (q & Eq & Rq).
  { intros v Hv. apply filter_In. rewrite mem_In. apply Scx, Hv. }
  { exact T. }
  destruct (rep_mul dom U (cfac cy) _ _ q _ _ (ok_rep _ _ Oy) Rq) as (f & Ef & Rf & (extra & Xf)).
  assert (Qi : incl (vorder q) (vorder (cfac cy))).
  { intros v Hv. apply (proj1 (proj2 Rq)) in Hv. apply filter_In in Hv as [H1 H2]. apply mem_In in H2.
    assert (K : In v (vorder (sfac s))) by (apply Scx; auto). apply Hy in K. tauto. }
  assert (Wf := proj1 Rf).
  assert (Xn : extra = []).
  { destruct extra as [|v extra]; [reflexivity|]. exfalso. assert (ND := wf_nodup _ _ Wf). rewrite Xf in ND.
    assert (Hv : In v (vorder f)) by (rewrite Xf; apply in_elt). apply (proj1 (proj2 Rf)) in Hv.
    assert (K : In v (vorder (cfac cy))) by (apply in_app_or in Hv as [Hv|Hv]; [exact Hv|]; apply Qi, (proj1 (proj2 Rq)), Hv).
    eapply (NoDup_app_no _ _ v ND K). left; reflexivity. }
  subst extra. rewrite app_nil_r in Xf.
  assert (F : f = cfac cy).
  { assert (P : pot f = pot (cfac cy)).
    { eapply pot_ext; [exact Wf|apply Oy|exact Xf|]. intros a R.
      set (a' := fun v => if mem v (vorder f) then a v else 0).
      assert (Ra : inrange card U a').
      { intros v Hv. unfold a'. destruct (mem v (vorder f)) eqn:M; [apply R, mem_In, M|]. apply zero_range, Hv. }
      assert (Ea : forall v, In v (vorder f) -> a v = a' v) by (intros v Hv; unfold a'; apply mem_In in Hv; rewrite Hv; reflexivity).
      rewrite (feval_deps f a a' Ea), (feval_deps (cfac cy) a a') by (rewrite <- Xf; exact Ea).
      rewrite (proj2 (proj2 (proj2 Rf)) a' Ra), <- (Sumx a' Ra).
      destruct (Qc_eq_dec (feval (sfac s) a') 0%Qc) as [Z'|Z'].
      - rewrite (half_zero cy s a' Ny Oy Hy Ra Z'). ring.
      - unfold Qcdiv. rewrite Qcmult_inv_r by exact Z'. ring. }
    assert (Fv : fvals f = fvals (cfac cy)).
    { destruct (vorder (cfac cy)) as [|w ws] eqn:Ey'.
      - rewrite (wf_no_vals (cfac cy) (ok_wf _ _ Oy) Ey'). apply wf_no_vals; [exact Wf|exact Xf].
      - eapply fmul_fvals; [exact Ef|rewrite Ey'; discriminate|rewrite Ey'; exact Qi]. }
    destruct f, (cfac cy); cbn in *; congruence. }
  subst f. exists (set_sfac x y new t), (Ok tt).
  assert (Tn : set_cfac y (cfac cy) t = t).
  { unfold set_cfac. rewrite Ey. rewrite dset_same by (rewrite Ey; destruct cy; reflexivity). destruct t; reflexivity. }
  split.
  { unfold send, dget_err. rewrite Ex, Exy, Ey. cbn [rbind]. rewrite En. cbn [rbind]. rewrite Eq. cbn [rbind]. rewrite Ef. cbn [rbind].
    rewrite Tn. reflexivity. }
  split; [|left; reflexivity].
  assert (On : okf (svars s) new).
  { split; [apply Rn|intros v Hv; apply (ok_in _ _ Os), SN, Hv|apply Os|]. intros a R. rewrite Vn by exact R. apply Os, R. }
  split; [rewrite tnodes_set_sfac; exact IN|]. split; [rewrite <- IA; apply skel_adj, skel_set_sfac|].
  split; [rewrite <- IV; unfold set_sfac; rewrite Exy; reflexivity|]. split; [eapply good_set_sfac; eassumption|].
  assert (HH : forall d, half d s -> half d (mkS (svars s) new)).
  { intros d (A1 & A2 & A3). split; [exact A1|]. split; cbn [svars sfac]; [intros v; rewrite SN; apply A2|].
    intros a R. rewrite Vn by exact R. apply A3, R. }
  intros e2 He2. destruct (C e2 He2) as (dp & dc & s2 & Dp & Dc & Ds & Kp & Kc).
  unfold calibE. rewrite tnodes_set_sfac, eget_set_sfac, Exy.
  destruct (same_edge (snd e2) (fst e2) (x, y)) eqn:SE; [|exists dp, dc, s2; auto 10].
  exists dp, dc, (mkS (svars s) new). split; [exact Dp|]. split; [exact Dc|]. split; [reflexivity|].
  assert (Ess : s2 = s).
  { apply same_edge_spec in SE. assert (E3 : eget (snd e2) (fst e2) (tedges t) = eget x y (tedges t)).
    { destruct SE as [SE|SE]; inversion SE; subst; [reflexivity|apply eget_sym]. }
    congruence. }
  subst s2. split; apply HH; assumption.
Qed.

(** An error leaves a state in which the offending separator is still there. *)
Definition ends (z : jtree * res unit) : Prop := Inv2 (fst z) /\ fine (fst z) (snd z).

Lemma send_ends x y e t : In e (redges r) -> (x, y) = e \/ (y, x) = e -> Inv2 t -> ends (send x y t).
Proof.
  intros He Hxy I. destruct (send_twice x y e t He Hxy I) as (t' & u & E & I' & F). rewrite E. split; [exact I'|]. cbn [fst snd].
  destruct F as [->|[-> Z]]; [left; reflexivity|right]. split; [reflexivity|].
  assert (t' = t); [|subst; exact Z].
  unfold send in E. match type of E with match ?x with Ok _ => _ | Err _ => _ end = _ => destruct x as [[? ?]|] end; inversion E; reflexivity.
Qed.

Lemma each_ends {A} (f : A -> jtree -> jtree * res unit) l :
  (forall x t, In x l -> Inv2 t -> ends (f x t)) -> forall t, Inv2 t -> ends (each f l t).
Proof.
  intros H. induction l as [|x l IH]; intros t I; cbn; [split; [exact I|left; reflexivity]|].
  assert (E := H x t (or_introl eq_refl) I). destruct (f x t) as [t' [u|e]]; [|exact E].
  apply IH; [|apply E]. intros y t2 Hy. apply H; right; exact Hy.
Qed.

Lemma pull_twice x : forall fuel p t, length (rkeys x) <= fuel -> adjok (tadj t0) p x -> Inv2 t ->
  incl (redges x) (redges r) -> (forall q, p = Some q -> In (q, rkey x) (redges r)) ->
  ends (pull fuel (rkey x) p t).
Proof.
  induction x as [k cs IH] using rtree_ind'. intros fuel p t Fu Ad I He Hp. cbn [rkeys length] in Fu.
  destruct fuel as [|fuel]; [lia|]. inversion Ad as [? ? ? Af Ac]; subst. cbn [pull rkey].
  rewrite (proj1 (proj2 I)), Af.
  assert (E1 := each_ends (fun x => pull fuel x (Some k)) (map rkey cs)).
  match type of E1 with ?P -> _ => assert (E0 : P); [|specialize (E1 E0 t I); clear E0] end.
  { intros y t' Hy I'. apply in_map_iff in Hy as (c & <- & Hc). rewrite Forall_forall in IH, Ac.
    apply IH; auto.
    - assert (X := sum_S_length rkeys c cs Hc). lia.
    - intros e H. apply He. eapply redges_sub; eassumption.
    - intros q Eq. inversion Eq; subst. apply He, redges_in, Hc. }
  destruct (each (fun x => pull fuel x (Some k)) (map rkey cs) t) as [t1 [u|e]]; [|exact E1].
  assert (I1 := proj1 E1). cbn in I1.
  destruct p as [[|ch p]|]; [split; [exact I1|left; reflexivity]| |split; [exact I1|left; reflexivity]].
  apply (send_ends k (String ch p) (String ch p, k)); auto.
Qed.

Lemma push_twice x : forall fuel p t, length (rkeys x) <= fuel -> adjok (tadj t0) p x -> Inv2 t ->
  incl (redges x) (redges r) -> ends (push fuel (rkey x) p t).
Proof.
  induction x as [k cs IH] using rtree_ind'. intros fuel p t Fu Ad I He. cbn [rkeys length] in Fu.
  destruct fuel as [|fuel]; [lia|]. inversion Ad as [? ? ? Af Ac]; subst. cbn [push rkey].
  rewrite (proj1 (proj2 I)), Af.
  apply each_ends; [|exact I]. intros y t' Hy I'. apply in_map_iff in Hy as (c & <- & Hc). rewrite Forall_forall in IH, Ac.
  assert (E1 := send_ends k (rkey c) (k, rkey c) t' (He _ (redges_in k cs c Hc)) (or_introl eq_refl) I').
  destruct (send k (rkey c) t') as [t1 [u|e]]; [|exact E1].
  apply IH; auto.
  - assert (X := sum_S_length rkeys c cs Hc). lia.
  - apply E1.
  - intros e H. apply He. eapply redges_sub; eassumption.
Qed.

Lemma calculate_twice : tvalid t0 = true -> 
  let t' := fst (calculate_messages t0) in
  tnodes t' = tnodes t0 /\ tadj t' = tadj t0 /\ tvalid t' = true /\ good t' /\ calib t' r /\
  fine t' (snd (calculate_messages t0)).
Proof.
  intros V. destruct (rt_root _ _ R0) as (rest & Er). unfold calculate_messages. rewrite Er. set (n := length (tnodes t0)).
  assert (I0 : Inv2 t0) by (split; auto).
  assert (Sz := rt_size _ _ R0). fold n in Sz.
  assert (P := pull_twice r (S n) None t0 ltac:(lia) (rt_adj _ _ R0) I0 (incl_refl _)).
  assert (P1 : ends (pull (S n) (rkey r) None t0)) by (apply P; discriminate). clear P.
  destruct (pull (S n) (rkey r) None t0) as [t1 [u|e]].
  - assert (Q1 := push_twice r (S n) None t1 ltac:(lia) (rt_adj _ _ R0) (proj1 P1) (incl_refl _)).
    destruct (push (S n) (rkey r) None t1) as [t2 [u'|e]].
    + destruct Q1 as [(A & B & C & G & K) _]. cbn in *. split; [exact A|]. split; [exact B|]. split; [reflexivity|].
      split; [apply good_valid, G|]. split; [exact K|left; reflexivity].
    + destruct Q1 as [(A & B & C & G & K) [F|[F Z]]]; [discriminate|]. cbn in *. inversion F; subst e. cbn.
      split; [exact A|]. split; [exact B|]. split; [congruence|]. split; [exact G|]. split; [exact K|]. right. auto.
  - destruct P1 as [(A & B & C & G & K) [F|[F Z]]]; [discriminate|]. cbn in *. inversion F; subst e. cbn.
    split; [exact A|]. split; [exact B|]. split; [congruence|]. split; [exact G|]. split; [exact K|]. right. auto.
Qed.
End Second.
End Again.
