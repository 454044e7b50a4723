(** Which calls of the decision methods raise: the methods. *)
From Verif Require Import Base BaseFacts NDArray NDArrayFacts SumCalc Factor FactorFacts FactorSpec FactorProofs Exact Spec SpecFacts Node Network NetSpec NetFacts NetInv
  NetView NetTable MCSpec Decision DecSpec DecInv DecVE DecView DecNorm DecFacts DecOpt DecElim DecErrSpec DecErr DecErr2.

Lemma informed_dec w v : dinv w -> informed w v \/ ~ informed w v.
Proof.
  intros I. destruct (dget v (dlook w)) as [i|] eqn:D.
  2: { right. intros (i & n & q & o & m & [H _] & _). congruence. }
  destruct (di_named w I v i D) as (n & Hn & _). assert (H : dholds w v i n) by (split; assumption).
  destruct (le_lt_dec 2 (length (nvalues n))) as [L|L].
  2: { right. intros (i' & n' & q & o & m & [H1 H2] & L' & _). assert (n' = n) by congruence. subst. lia. }
  assert (G : (exists q o m, In q (nporder n) /\ dholds w q o m /\ 2 <= length (nvalues m)) \/
              ~ exists q o m, In q (nporder n) /\ dholds w q o m /\ 2 <= length (nvalues m)).
  { generalize (nporder n). intros l. induction l as [|q l IH]; [right; intros (q & o & m & [] & _)|].
    destruct IH as [(q' & o & m & A & B)|N]; [left; exists q', o, m; split; [right; exact A|exact B]|].
    destruct (dget q (dlook w)) as [o|] eqn:Dq.
    2: { right. intros (q' & o & m & [<-|A] & [B1 B2] & B3); [congruence|]. apply N. exists q', o, m. split; [exact A|split; [split|]; assumption]. }
    destruct (di_named w I q o Dq) as (m & Hm & _). destruct (le_lt_dec 2 (length (nvalues m))) as [Lm|Lm].
    - left. exists q, o, m. split; [left; reflexivity|]. split; [split; assumption|exact Lm].
    - right. intros (q' & o' & m' & [<-|A] & [B1 B2] & B3); [assert (m' = m) by congruence; subst; lia|].
      apply N. exists q', o', m'. split; [exact A|split; [split|]; assumption]. }
  destruct G as [(q & o & m & A & B & C)|N].
  - left. exists i, n, q, o, m. auto.
  - right. intros (i' & n' & q & o & m & [H1 H2] & _ & A & B & C). assert (n' = n) by congruence. subst. apply N. exists q, o, m. auto.
Qed.

Lemma prodn_ones {A} (g : A -> nat) l : (forall y, In y l -> g y = 1) -> prodn (map g l) = 1.
Proof. induction l as [|y l IH]; intros P; [reflexivity|]. cbn [map prodn]. rewrite (P y (or_introl eq_refl)), IH; [reflexivity|]. intros z Hz; apply P; right; exact Hz. Qed.

Lemma best_single f v ds : (forall d, In d ds -> exists x, get_potential f [(v, [d])] = Ok x /\ length (data x) = 1) ->
  forall m y, length (data m) = 1 -> exists m' d, best f v ds (Some (m, y)) = Ok (Some (m', d)) /\ (d = y \/ In d ds).
Proof.
  induction ds as [|d ds IH]; intros G m y L.
  - exists m, y. split; [reflexivity|left; reflexivity].
  - cbn [best]. destruct (G d (or_introl eq_refl)) as (x & -> & Lx). cbn [rbind]. unfold truth_gt.
    destruct (data x) as [|a [|b t]] eqn:Ex; try discriminate Lx. destruct (data m) as [|c [|e t]] eqn:Em; try discriminate L. cbn [rbind].
    assert (G' : forall z, In z ds -> exists x, get_potential f [(v, [z])] = Ok x /\ length (data x) = 1) by (intros z Hz; apply G; right; exact Hz).
    destruct (qltb c a).
    + destruct (IH G' x d) as (m' & d' & E & O); [rewrite Ex; reflexivity|]. exists m', d'. split; [exact E|]. right. destruct O as [->|O]; [left; reflexivity|right; exact O].
    + destruct (IH G' m y) as (m' & d' & E & O); [rewrite Em; reflexivity|]. exists m', d'. split; [exact E|]. destruct O as [->|O]; [left; reflexivity|right; right; exact O].
Qed.

Section Methods.
Context {SO : SetOrder} {BO : BagOrder}.

Theorem local_outcome w v i n : dinv w -> dtidy w -> nonneg_bn (dbn w) -> dholds w v i n -> nkind n = KDecision ->
  (exists e, optimize_locally w v = Err e /\ undecided w v e) \/
  (exists d, optimize_locally w v = Ok d /\ In d (nvalues n) /\ forall e, ~ undecided w v e).
Proof.
  intros I T NN H K. destruct (some_range w I T) as (a0 & R0).
  destruct (net_factors_ok w I T NN) as (js & E & W & C & NE & V).
  assert (NL : dlook w <> []) by (intros Z; assert (X := proj1 H); rewrite Z in X; discriminate).
  assert (U : is_utility n = false) by (unfold is_utility; rewrite K; reflexivity).
  set (vs := others (dbn w) (v :: nporder n)).
  assert (DB := dead_beside w I T NN js E a0 R0 v i n H U). fold vs in DB.
  assert (UN : forall e, undecided w v e -> impossible_beside w v \/ ~ impossible_beside w v /\ informed w v) by (intros e [A|A B]; auto).
  unfold optimize_locally, dget_err, hget, values_attr. rewrite (proj1 H). cbn [rbind]. rewrite (proj2 H). cbn [rbind].
  rewrite E. cbn [rbind]. rewrite (eliminated w I v i n H). fold vs. rewrite K.
  destruct (VE_outcome (values_of (dbn w)) (bnames (dbn w)) a0 js vs) as [[Er D]|(r & Er & D & Wr & Or)]; try assumption.
  - apply NoDup_filter, (dbn_wf w I T).
  - intros u Hu. apply others_In in Hu. tauto.
  - intros u Hu. apply others_In in Hu as [Hu _]. apply (in_bnames (dbn w)) in Hu as (m & Hm & <-). unfold card.
    rewrite (values_of_node (dbn w) (dbn_wf w I T) m Hm). destruct (wn_values _ _ (wb_nodes _ (dbn_wf w I T) m Hm)) as [A _].
    destruct (dn_values m); [contradiction|cbn; lia].
  - exact (NE NL).
  - intros u Hu. apply C. apply others_In in Hu. tauto.
  - exact (js_trivial w I T NN js E a0 R0).
  - left. exists FloatingPointError. rewrite Er. split; [reflexivity|]. apply undecided_impossible, DB, D.
  - rewrite Er. cbn [rbind].
    assert (NI : ~ impossible_beside w v) by (intros X; apply D, DB, X).
    assert (OS : forall u, In u (vorder (snd r)) <-> In u (v :: nporder n)).
    { intros u. rewrite (wj_scope _ _ _ Wr), Or, <- C. unfold vs. rewrite others_In. split.
      - intros [A B]. destruct (In_dec_s u (v :: nporder n)) as [X|X]; [exact X|]. exfalso. apply B. auto.
      - intros X. split; [|intros [_ Y]; exact (Y X)]. destruct X as [<-|X]; [apply (dbn_name w I v i n H (or_intror K))|apply (parent_dvals w I T v i n u H X)]. }
    assert (WU := wj_u _ _ _ Wr).
    assert (ND : forall u, In u (bnames (dbn w)) -> NoDup (values_of (dbn w) u) /\ 1 <= length (values_of (dbn w) u)).
    { intros u Hu. apply (in_bnames (dbn w)) in Hu as (m & Hm & <-). rewrite (values_of_node (dbn w) (dbn_wf w I T) m Hm).
      destruct (wn_values _ _ (wb_nodes _ (dbn_wf w I T) m Hm)) as [A B]. split; [exact B|]. destruct (dn_values m); [contradiction|cbn; lia]. }
    assert (SV : forall u, In u (vorder (snd r)) -> In u (bnames (dbn w))).
    { intros u Hu. apply (wj_vars _ _ _ Wr), (wj_scope _ _ _ Wr), Hu. }
    assert (FV : forall u, In u (vorder (snd r)) -> fvalues (snd r) u = values_of (dbn w) u).
    { intros u Hu. unfold fvalues. rewrite (wf_vals _ _ WU u Hu). reflexivity. }
    assert (DV := dbn_values w I T v i n H (or_intror K)).
    assert (Qv : forall q, In q (nporder n) -> q <> v).
    { intros q Iq ->. assert (X := dk_names _ _ (di_ok w I i n (proj2 H))). rewrite (dnamed w I v i n H) in X. inversion X; contradiction. }
    assert (GP : forall d, In d (nvalues n) -> exists x, get_potential (snd r) [(v, [d])] = Ok x /\
       length (data x) = prodn (map (fun u => length (choice (snd r) [(v, [d])] u)) (vorder (snd r)))).
    { intros d Id. destruct (get_potential_named (snd r) [(v, [d])]) as (x & Ex & _ & Dx).
      - apply (wf_good _ _ WU). intros u Hu. apply ND, SV, Hu.
      - discriminate.
      - intros u l y Hu Dl Hy. cbn in Dl. destruct (String.eqb_spec u v) as [->|_]; [|discriminate]. injection Dl as <-.
        destruct Hy as [<-|[]]. rewrite (FV v Hu), DV. exact Id.
      - exists x. split; [exact Ex|]. rewrite Dx, map_length, length_states, map_map. reflexivity. }
    assert (NV : nvalues n <> []) by (apply (T v i n H); congruence).
    destruct (informed_dec w v I) as [IF|NF].
    + destruct IF as (i' & n' & q & o & m & [H1 H2] & L2 & Iq & Hm & Lq). assert (n' = n) by (destruct H; congruence). subst n'.
      assert (GP2 : forall d, In d (nvalues n) -> exists x, get_potential (snd r) [(v, [d])] = Ok x /\ 2 <= length (data x)).
      { intros d Id. destruct (GP d Id) as (x & Ex & Lx). exists x. split; [exact Ex|]. rewrite Lx.
        apply (prodn_ge2 (fun u => length (choice (snd r) [(v, [d])] u)) _ q).
        - apply OS. right; exact Iq.
        - unfold choice. cbn [dget]. rewrite eqb_neq_s by (apply Qv, Iq). rewrite FV by (apply OS; right; exact Iq).
          rewrite (proj1 (parent_dvals w I T v i n q H Iq)), (dvals_holds w q o m Hm). exact Lq.
        - intros u Hu. unfold choice. cbn [dget]. destruct (String.eqb u v); [cbn; lia|]. rewrite (FV u Hu). apply ND, SV, Hu. }
      left. exists ValueError. split.
      * destruct (nvalues n) as [|d1 [|d2 l]]; [cbn in L2; lia|cbn in L2; lia|]. cbn [best rbind].
        destruct (GP2 d1) as (x1 & -> & Y1); [left; reflexivity|]. cbn [rbind best].
        destruct (GP2 d2) as (x2 & -> & Y2); [right; left; reflexivity|]. cbn [rbind]. unfold truth_gt.
        destruct (data x2) as [|y [|z t]]; [cbn in Y2; lia|cbn in Y2; lia|]. reflexivity.
      * apply undecided_informed; [exact NI|]. exists i', n, q, o, m. split; [split; assumption|]. auto.
    + right. assert (UF : forall e, ~ undecided w v e) by (intros e X; destruct (UN e X) as [A|[_ A]]; contradiction).
      destruct (nvalues n) as [|d1 [|d2 l]] eqn:EV; [contradiction| |].
      * exists d1. cbn [best rbind]. destruct (GP d1 (or_introl eq_refl)) as (x & -> & _). cbn [rbind best]. split; [reflexivity|]. split; [left; reflexivity|exact UF].
      * assert (G1 : forall d, In d (d1 :: d2 :: l) -> exists x, get_potential (snd r) [(v, [d])] = Ok x /\ length (data x) = 1).
        { intros d Id. destruct (GP d Id) as (x & Ex & Lx). exists x. split; [exact Ex|]. rewrite Lx. apply prodn_ones. intros u Hu.
          unfold choice. cbn [dget]. destruct (String.eqb_spec u v) as [_|Nu]; [reflexivity|]. rewrite (FV u Hu).
          apply OS in Hu as [X|Hu]; [congruence|]. destruct (dparent w I v i n u H Hu) as (o & m & Hm & Km & _).
          rewrite (dbn_values w I T u o m Hm Km). assert (M : nvalues m <> []) by (apply (T u o m Hm), has_not_utility_kind, Km).
          destruct (le_lt_dec 2 (length (nvalues m))) as [L|L].
          - exfalso. apply NF. exists i, n, u, o, m. split; [exact H|]. split; [rewrite EV; cbn; lia|]. auto.
          - destruct (nvalues m) as [|? [|? ?]]; [contradiction|reflexivity|cbn in L; lia]. }
        cbn [rbind]. change (best (snd r) v (d1 :: d2 :: l) None) with (let* eu := get_potential (snd r) [(v, [d1])] in best (snd r) v (d2 :: l) (Some (eu, d1))).
        destruct (G1 d1 (or_introl eq_refl)) as (x & -> & Lx). cbn [rbind].
        destruct (best_single (snd r) v (d2 :: l) (fun d Hd => G1 d (or_intror Hd)) x d1 Lx) as (m' & d & -> & O). cbn [rbind].
        exists d. split; [reflexivity|]. split; [|exact UF]. destruct O as [->|O]; [left; reflexivity|right; exact O].
Qed.

Lemma undecided_fun w v e e' : undecided w v e -> undecided w v e' -> e = e'.
Proof. intros [A|A B] [A'|A' B']; try reflexivity; contradiction. Qed.

Lemma optimise_fold w1 : dinv w1 -> dtidy w1 -> nonneg_bn (dbn w1) -> forall order acc,
  (forall v, In v order -> exists i n, dholds w1 v i n /\ nkind n = KDecision) ->
  (exists e, foldM (fun sol v => let* d := optimize_locally w1 v in Ok (dset v d sol)) order acc = Err e /\
     exists o1 v o2, order = o1 ++ v :: o2 /\ (forall u e', In u o1 -> ~ undecided w1 u e') /\ undecided w1 v e) \/
  (exists sol, foldM (fun sol v => let* d := optimize_locally w1 v in Ok (dset v d sol)) order acc = Ok sol /\
     (forall v e, In v order -> ~ undecided w1 v e) /\
     (forall v i n, In v order -> dholds w1 v i n -> exists d, dget v sol = Some d /\ In d (nvalues n)) /\
     forall v, ~ In v order -> dget v sol = dget v acc).
Proof.
  intros I T NN. induction order as [|v order IH]; intros acc K.
  - right. exists acc. split; [reflexivity|]. split; [intros v e []|]. split; [intros v i n []|reflexivity].
  - destruct (K v (or_introl eq_refl)) as (i & n & H & Kn). cbn [foldM].
    destruct (local_outcome w1 v i n I T NN H Kn) as [(e & E & UD)|(d & E & Id & NU)]; rewrite E; cbn [rbind].
    + left. exists e. split; [reflexivity|]. exists [], v, order. split; [reflexivity|]. split; [intros u e' []|exact UD].
    + destruct (IH (dset v d acc) (fun u Hu => K u (or_intror Hu))) as [(e & E' & o1 & u & o2 & -> & N1 & UD)|(sol & E' & N1 & A & B)].
      * left. exists e. split; [exact E'|]. exists (v :: o1), u, o2. split; [reflexivity|]. split; [|exact UD].
        intros x e' [<-|Hx]; [apply NU|apply N1, Hx].
      * right. exists sol. split; [exact E'|]. split; [intros u e [<-|Hu]; [apply NU|apply N1, Hu]|]. split.
        -- intros u j m Hu Hm. destruct (In_dec_s u order) as [X|X]; [apply (A u j m X Hm)|]. destruct Hu as [<-|Hu]; [|contradiction].
           exists d. rewrite (B v X). split; [apply dget_dset_eq|]. assert (m = n) by (destruct Hm, H; congruence). subst m. exact Id.
        -- intros u Hu. rewrite B by (intros X; apply Hu; right; exact X). apply dget_dset_neq. intros ->. apply Hu. left; reflexivity.
Qed.

(** Tables after the preparation. *)
Lemma prepared_nonneg w w1 order : dinv w -> dinv w1 -> same_but w w1 order ->
  (forall v i n', In v order -> dholds w1 v i n' -> nonneg_node n') ->
  (forall n, In n (bnodes (dbn w)) -> ~ In (dn_name n) order -> Forall (fun x => (0 <= x)%Qc) (data (dn_cpd n))) -> nonneg_bn (dbn w1).
Proof.
  intros I I1 SB A B m Hm. apply (dobj_In w1 I1) in Hm as (u & j & x & Hx & Ux & ->). cbn [snapshot_node dn_cpd].
  destruct (In_dec_s u order) as [X|X]; [exact (A u j x X Hx)|].
  destruct (same_back w w1 order I SB u j x Hx) as (y & Hy & F & P). destruct (sb_objs _ _ _ SB u j y Hy) as (x' & Hx' & _ & _ & Ex).
  assert (x' = x) by (destruct Hx, Hx'; congruence). subst x'. rewrite (Ex X) in *.
  apply (B (snapshot_node (dheap w) y)); [apply (dobj_In w I); exists u, j, y; auto|]. cbn [snapshot_node dn_name]. rewrite (dnamed w I u j y Hy). exact X.
Qed.

Lemma faultless_decision w order fixed v : dinv w -> faultless w (wanted_items order fixed) -> In v order ->
  exists i n, dholds w v i n /\ nkind n = KDecision.
Proof.
  intros I F Hv. assert (Hi : In (v, dget v fixed) (wanted_items order fixed)) by (apply (in_map (fun v => (v, dget v fixed))), Hv).
  destruct (dget v (dlook w)) as [i|] eqn:D.
  - destruct (di_named w I v i D) as (n & Hn & _). exists i, n. split; [split; assumption|].
    destruct (nkind n) eqn:K; try reflexivity; exfalso; apply (F v _ AttributeError Hi), (fault_kind w v _ i n); try (split; assumption); congruence.
  - exfalso. apply (F v _ KeyError Hi), fault_name, dget_None, D.
Qed.

Theorem optimal_outcome w order fixed : dinv w -> dtidy w ->
  (forall n, In n (bnodes (dbn w)) -> ~ In (dn_name n) order -> Forall (fun x => (0 <= x)%Qc) (data (dn_cpd n))) ->
  exists w1 r, optimal_decisions w order fixed = (w1, r) /\ same_but w w1 order /\
  ((exists e, r = Err e /\ first_fault w (wanted_items order fixed) e) \/
   (faultless w (wanted_items order fixed) /\
     ((exists e, r = Err e /\ exists o1 v o2, order = o1 ++ v :: o2 /\ (forall u e', In u o1 -> ~ undecided w1 u e') /\ undecided w1 v e) \/
      (exists sol, r = Ok sol /\ (forall v e, In v order -> ~ undecided w1 v e) /\
         (forall v, In v (dkeys sol) <-> In v order) /\
         forall v i n, In v order -> dholds w v i n -> exists d, dget v sol = Some d /\ In d (nvalues n))))).
Proof.
  intros I T NN. destruct (prepare_outcome fixed order w I T) as (w1 & r & E & I1 & SB & O). unfold optimal_decisions. rewrite E.
  destruct O as [(-> & FL & NW)|(e & -> & FF)].
  2: { exists w1. eexists. split; [reflexivity|]. split; [exact SB|]. left. exists e. auto. }
  assert (T1 := same_tidy w w1 order I SB T). assert (N1 := prepared_nonneg w w1 order I I1 SB NW NN).
  exists w1. eexists. split; [reflexivity|]. split; [exact SB|]. right. split; [exact FL|].
  destruct (optimise_fold w1 I1 T1 N1 order []) as [(e & Ee & X)|(sol & Es & NU & A & B)].
  - intros v Hv. destruct (faultless_decision w order fixed v I FL Hv) as (i & n & H & K). destruct (sb_objs _ _ _ SB v i n H) as (n' & H' & F & _).
    unfold face in F. injection F as F1 F2 F3. exists i, n'. split; [exact H'|congruence].
  - left. exists e. auto.
  - right. exists sol. split; [exact Es|]. split; [exact NU|]. split.
    + intros v. split.
      * intros Hv. destruct (In_dec_s v order) as [X|X]; [exact X|]. specialize (B v X). cbn in B. apply dget_None in B. contradiction.
      * intros Hv. destruct (faultless_decision w order fixed v I FL Hv) as (i & n & H & _). destruct (sb_objs _ _ _ SB v i n H) as (n' & H' & _).
        destruct (A v i n' Hv H') as (d & D & _). apply dget_In in D. exact (in_map fst _ _ D).
    + intros v i n Hv H. destruct (sb_objs _ _ _ SB v i n H) as (n' & H' & F & _). unfold face in F. injection F as F1 F2 F3.
      destruct (A v i n' Hv H') as (d & D & Id). exists d. split; [exact D|congruence].
Qed.

(** Expected utilities. *)
Lemma current_outcome w : dinv w -> dtidy w -> nonneg_bn (dbn w) ->
  (dlook w = [] -> (let* fs := net_factors w in let* r := generalized_VE fs (chance_names w) in Ok (pot (snd r))) = Err TypeError) /\
  (dlook w <> [] -> plan_sum w [] (fun _ => 1%Qc) = 0%Qc ->
   (let* fs := net_factors w in let* r := generalized_VE fs (chance_names w) in Ok (pot (snd r))) = Err FloatingPointError).
Proof.
  intros I T NN. split.
  - intros E. unfold net_factors, chance_names. rewrite E. cbn. unfold generalized_VE. cbn.
    assert (P := bag_perm 0 []). apply Permutation_sym, Permutation_nil in P. rewrite P. reflexivity.
  - intros NL Z. destruct (net_factors_ok w I T NN) as (js & E & W & C & NE & V). rewrite E. cbn [rbind].
    rewrite (chance_names_eq w I). destruct (some_range w I T) as (a0 & R0).
    assert (DA := dead_all w I T NN js E a0 R0).
    destruct (VE_outcome (values_of (dbn w)) (bnames (dbn w)) a0 js (bnames (dbn w))) as [[Er D]|(r & Er & D & _)]; try assumption.
    + apply (dbn_wf w I T). + apply incl_refl.
    + intros u Hu. apply (in_bnames (dbn w)) in Hu as (m & Hm & <-). unfold card.
      rewrite (values_of_node (dbn w) (dbn_wf w I T) m Hm). destruct (wn_values _ _ (wb_nodes _ (dbn_wf w I T) m Hm)) as [A _].
      destruct (dn_values m); [contradiction|cbn; lia].
    + exact (NE NL). + apply C. + exact (js_trivial w I T NN js E a0 R0).
    + rewrite Er. reflexivity.
    + exfalso. apply D, DA, Z.
Qed.

Lemma given_wanted ds : NoDup (dkeys ds) -> given_items ds = wanted_items (dkeys ds) ds.
Proof.
  intros ND. unfold given_items, wanted_items, dkeys. rewrite map_map. apply map_ext_in. intros (v & d) H. cbn [fst snd].
  rewrite (In_dget v d ds ND H). reflexivity.
Qed.

Lemma faultless_legal w ds : dinv w -> NoDup (dkeys ds) -> faultless w (given_items ds) -> legal_decisions w ds.
Proof.
  intros I ND F. split; [exact ND|]. intros v d H. assert (Hi : In (v, Some d) (given_items ds)) by (apply (in_map (fun p => (fst p, Some (snd p))) ds (v, d)), H).
  rewrite (given_wanted ds ND) in F, Hi. assert (Hv : In v (dkeys ds)) by (exact (in_map fst _ _ H)).
  destruct (faultless_decision w (dkeys ds) ds v I F Hv) as (i & n & Hn & K). exists i, n. split; [exact Hn|]. split; [exact K|].
  destruct (In_dec_s d (nvalues n)) as [X|X]; [exact X|]. exfalso. apply (F v _ ValueError Hi). exact (fault_value w v d i n Hn K X).
Qed.

Theorem utility_outcome w ds : dinv w -> dtidy w -> NoDup (dkeys ds) -> nonneg_tables (open_nodes w ds) ->
  exists w1 r, expected_utility w ds = (w1, r) /\ same_but w w1 (dkeys ds) /\
  ((exists e, r = Err e /\ first_fault w (given_items ds) e) \/
   (faultless w (given_items ds) /\
     ((dlook w = [] /\ r = Err TypeError) \/
      (dlook w <> [] /\ plan_sum w ds (fun _ => 1%Qc) = 0%Qc /\ r = Err FloatingPointError) \/
      (dlook w <> [] /\ plan_sum w ds (fun _ => 1%Qc) <> 0%Qc /\ r = Ok (scalar (plan_value w ds)))))).
Proof.
  intros I T ND NN. assert (GI := given_wanted ds ND).
  destruct (prepare_outcome ds (dkeys ds) w I T) as (w1 & r & E & I1 & SB & O).
  assert (ED : decide_all w ds = (w1, r)) by (rewrite (decide_prepare ds ds); [exact E|]; intros v d H; apply In_dget; assumption).
  rewrite <- GI in O. unfold expected_utility. rewrite ED. destruct O as [(-> & FL & _)|(e & -> & FF)].
  2: { exists w1. eexists. split; [reflexivity|]. split; [exact SB|]. left. exists e. auto. }
  assert (L := faultless_legal w ds I ND FL). destruct (decide_all_ok ds w I L) as (w' & E' & I' & X).
  assert (w' = w1) by congruence. subst w'.
  assert (T1 := same_tidy w w1 _ I SB T). assert (N1 := nonneg_decided w w1 ds I I1 X L NN).
  exists w1. eexists. split; [reflexivity|]. split; [exact SB|]. right. split; [exact FL|].
  destruct (current_outcome w1 I1 T1 N1) as [CE CZ]. assert (LK := sb_look _ _ _ SB). rewrite LK in CE, CZ.
  assert (PD := plan_decided w w1 ds I I1 X L T (fun _ => 1%Qc)). rewrite PD in CZ.
  destruct (dlook w) as [|p l] eqn:EL; [left; auto|right]. assert (NL : p :: l <> []) by discriminate.
  destruct (Qc_eq_dec (plan_sum w ds (fun _ => 1%Qc)) 0%Qc) as [Z|NZ]; [left; auto|right].
  split; [exact NL|]. split; [exact NZ|]. rewrite (current_utility w1 I1 T1); [|congruence|exact N1|rewrite PD; exact NZ].
  rewrite (value_decided w w1 ds I I1 X L T). reflexivity.
Qed.
End Methods.
