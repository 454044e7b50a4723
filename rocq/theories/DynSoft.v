(** SoftEvidenceExact: transition evidence as desired posteriors amounts to prior
    feedback, for hard evidence outside the interface. *)
From Coq Require Import Field.
From Verif Require Import Base BaseFacts NDArray NDArrayFacts SumCalc Factor FactorFacts Exact Spec SpecFacts Order OrderSpec JoinTree TreeSpec JTBuild JTProof JTProof2 JTTop JTJunction JTHistory
  VEProof2 MCSpec DecFacts DecNorm MCProof Node Network NetSpec NetFacts NetView Dynamic DynSpec DynPure DynHeap DynPrior.

Lemma filter_nil_all {A} (P : A -> bool) l : (forall x, In x l -> P x = false) -> filter P l = [].
Proof. induction l as [|x l IH]; intros H; [reflexivity|]. cbn. rewrite (H x (or_introl eq_refl)). apply IH. intros y Hy. apply H. right. exact Hy. Qed.

(** ** Roots of a Bayesian network have their tables as priors. *)
Section Roots.
Variable b : bn.
Hypothesis WB : wf_bn b.
Hypothesis ST : stochastic_bn b.
Variable order : list string.
Hypothesis TO : topological b order.

Lemma ev_none : ev_ok b []. Proof. split; [constructor|intros v e []]. Qed.

Lemma iweight_none a : iweight b [] a = qprod (map (fun n => feval (from_node n) a) (bnodes b)).
Proof. unfold iweight. apply qprod_map_ext. intros n _. unfold ievw. cbn [dget]. ring. Qed.

Definition origin (v : string) (a : asg) : asg := fun u => if String.eqb u v then a v else 0.

Lemma card_pos v : In v (bnames b) -> 0 < card (values_of b) v.
Proof.
  intros H. destruct (in_bnames b v H) as (n & Hn & <-). unfold card. rewrite (values_of_node b WB n Hn).
  destruct (wn_values _ _ (wb_nodes _ WB n Hn)) as [N _]. destruct (dn_values n); [congruence|cbn; lia].
Qed.

Lemma total_mass : mass b [] [] = 1%Qc.
Proof.
  rewrite (mass_total b WB [] (fun _ => 0) ev_none). rewrite <- (total_one b WB order TO [] (fun n s H _ => ST n s H) (fun _ => 0)).
  - rewrite (others_nil b). apply sum_over_ext. intros a. rewrite iweight_none. f_equal. f_equal.
    induction (bnodes b) as [|n l IH]; [reflexivity|]. cbn. f_equal. exact IH.
  - intros v Hv. apply card_pos, Hv.
Qed.

Lemma root_split n x : In n (bnodes b) -> dn_parents n = [] -> In x (dn_values n) ->
  mass b [] [(dn_name n, x)] = (entry n [(dn_name n, x)] *
    sum_over (card (values_of b)) (others b [dn_name n]) (fun c => qprod (map (fun m => feval (from_node m) c) (filter (fun m => negb (mem (dn_name m) [dn_name n])) (bnodes b))))
      (origin (dn_name n) (asg_q b [(dn_name n, x)])))%Qc.
Proof.
  intros Hn P Hx. set (v := dn_name n). set (q := [(v, x)]).
  assert (Hv : In v (bnames b)) by exact (in_map _ _ _ Hn).
  assert (IQ : is_inst b [v] q).
  { split; [constructor; [tauto|constructor]|]. split; [cbn; tauto|]. intros u y [E|[]]. injection E as <- <-. unfold v. rewrite (values_of_node b WB n Hn). exact Hx. }
  rewrite (mass_sum b WB [] q [v] ev_none IQ) by (try (constructor; [tauto|constructor]); intros u [<-|[]]; exact Hv).
  assert (SP : forall a, iweight b [] a = (feval (from_node n) a * qprod (map (fun m => feval (from_node m) a) (filter (fun m => negb (mem (dn_name m) [v])) (bnodes b))))%Qc).
  { intros a. rewrite iweight_none. rewrite (qprod_split _ (fun m => mem (dn_name m) [v])). f_equal.
    assert (F : filter (fun m => mem (dn_name m) [v]) (bnodes b) = [n]).
    { assert (ND := wb_names _ WB). unfold bnames in ND. unfold v. clear - ND Hn. revert ND Hn. generalize (bnodes b). intros l. induction l as [|m l IH]; intros ND Hn; [destruct Hn|].
      cbn in ND. inversion ND as [|? ? Nm ND']; subst. destruct Hn as [->|Hn].
      - cbn. rewrite String.eqb_refl. cbn. f_equal. apply filter_nil_all. intros m Hm. cbn. rewrite eqb_neq_s; [reflexivity|]. intros E. apply Nm. rewrite <- E. exact (in_map _ _ _ Hm).
      - cbn. rewrite eqb_neq_s; [apply IH; assumption|]. intros E. apply Nm. rewrite E. exact (in_map _ _ _ Hn). }
    rewrite F. cbn. ring. }
  rewrite (sum_over_ext _ _ _ _ _ SP).
  rewrite (sum_over_mult_l _ _ [v]).
  2: { intros a a' E. apply feval_deps. intros u Hu. cbn [from_node vorder] in Hu. rewrite P in Hu. cbn in Hu. destruct Hu as [<-|[]]. apply E. left. reflexivity. }
  2: { intros u [<-|[]] Hu. apply others_In in Hu. apply (proj2 Hu). left. reflexivity. }
  assert (A : feval (from_node n) (asg_q b q) = entry n [(v, x)]).
  { unfold feval, entry, asg_q. cbn [from_node pot vorder]. rewrite P. cbn [map fst snd]. f_equal. f_equal. fold v. unfold v at 2. rewrite (values_of_node b WB n Hn). reflexivity. }
  rewrite A.
  assert (D : deps (bnames b) (fun a => qprod (map (fun m => feval (from_node m) a) (filter (fun m => negb (mem (dn_name m) [v])) (bnodes b))))).
  { apply (qprod_map_deps (bnames b) (fun m a => feval (from_node m) a)). intros m Hm. apply filter_In in Hm as [Hm _]. intros a a' E. apply feval_deps.
    intros u Hu. apply E. eapply from_node_scope; eassumption. }
  rewrite (sum_over_deps _ _ _ _ D (asg_q b q) (origin v (asg_q b q))).
  2: { intros u Hu N. unfold origin. destruct (String.eqb_spec u v) as [->|Nu]; [reflexivity|]. exfalso. apply N, others_In. split; [exact Hu|]. intros [E|[]]; congruence. }
  reflexivity.
Qed.

Lemma origin_range n x : In n (bnodes b) -> In x (dn_values n) -> inrange (card (values_of b)) (bnames b) (origin (dn_name n) (asg_q b [(dn_name n, x)])).
Proof.
  intros Hn Hx. set (v := dn_name n). set (q := [(v, x)]).
  assert (IQ : is_inst b [v] q).
  { split; [constructor; [tauto|constructor]|]. split; [cbn; tauto|]. intros u y [E|[]]. injection E as <- <-. unfold v. rewrite (values_of_node b WB n Hn). exact Hx. }
  intros u Hu. unfold origin. destruct (String.eqb_spec u v) as [->|Nu]; [|apply card_pos, Hu]. apply (asg_q_range b [v] q IQ). left. reflexivity.
Qed.

Lemma root_mass n x : In n (bnodes b) -> dn_parents n = [] -> In x (dn_values n) -> mass b [] [(dn_name n, x)] = entry n [(dn_name n, x)].
Proof.
  intros Hn P Hx. rewrite (root_split n x Hn P Hx), (total_one b WB order TO [dn_name n] (fun n s H _ => ST n s H)); [ring|]. apply origin_range; assumption.
Qed.

Lemma root_prior n x : In n (bnodes b) -> dn_parents n = [] -> In x (dn_values n) -> posterior b [] [(dn_name n, x)] = entry n [(dn_name n, x)].
Proof.
  intros Hn P Hx. unfold posterior. rewrite total_mass. rewrite (proj2 (qeqb_false _ _)) by (intros H; apply (f_equal this) in H; discriminate).
  rewrite (root_mass n x Hn P Hx). field. intros H. apply (f_equal this) in H. discriminate.
Qed.
End Roots.

Lemma meant_app_hard b e r ev' : hard_only e -> meant b (e ++ r) ev' -> exists r', ev' = e ++ r' /\ meant b r r'.
Proof.
  revert ev'. induction e as [|(v & x) e IH]; intros ev' H M; [exists ev'; auto|]. cbn in M.
  assert (H' : hard_only e) by (intros u y Hy; apply (H u y); right; exact Hy).
  destruct (H v x (or_introl eq_refl)) as (y & ->). inversion M as [|? ? ? e' M'|]; subst. destruct (IH _ H' M') as (r' & -> & M2). exists r'. auto.
Qed.

Lemma meant_softs b (Q : string * string -> list Qc) l : NoDup (map fst l) -> forall r',
  meant b (map (fun vp => (fst vp, Soft (Q vp))) l) r' ->
  (forall u, ~ In u (map fst l) -> dget u r' = None) /\
  exists kap : string -> Qc, (forall v, kap v <> 0%Qc) /\ forall v p, In (v, p) l -> exists lv, dget v r' = Some (Soft lv) /\
    forall i, i < length (prior b v) -> (nth i (prior b v) 0 * nth i lv 0 = kap v * nth i (Q (v, p)) 0)%Qc.
Proof.
  induction l as [|(v & p) l IH]; intros ND r' M.
  - inversion M; subst. split; [reflexivity|]. exists (fun _ => 1%Qc). split; [intros _ H; apply (f_equal this) in H; discriminate|intros v p []].
  - cbn in ND. inversion ND as [|? ? Nv ND']; subst x l0. cbn [map fst] in M. inversion M as [| |? ? lv ? e' MV M']; subst.
    destruct (IH ND' _ M') as (Z & kap & K & H). destruct MV as (L1 & L2 & L3 & c & Hc & EQ). split.
    + intros u Nu. cbn in Nu |- *. rewrite eqb_neq_s by (intros ->; tauto). apply Z. tauto.
    + exists (fun u => if String.eqb u v then c else kap u). split; [intros u; destruct (String.eqb u v); auto|].
      intros u p' [E|I].
      * injection E as <- <-. exists lv. cbn [dget]. rewrite String.eqb_refl. auto.
      * destruct (H u p' I) as (lu & D & HE). assert (Nu : u <> v) by (intros ->; apply Nv; exact (in_map fst _ _ I)).
        exists lu. cbn [dget]. rewrite eqb_neq_s by congruence. auto.
Qed.

Lemma dget_app_l {A} (d d' : dict A) v x : dget v d = Some x -> dget v (d ++ d') = Some x.
Proof. induction d as [|(u & y) d IH]; [discriminate|]. cbn. destruct (String.eqb v u); [auto|exact IH]. Qed.
Lemma dget_app_r {A} (d d' : dict A) v : dget v d = None -> dget v (d ++ d') = dget v d'.
Proof. induction d as [|(u & y) d IH]; [reflexivity|]. cbn. destruct (String.eqb v u); [discriminate|exact IH]. Qed.

(** Posteriors that differ by a factor. *)
Lemma posterior_scaled b b' ev ev' K : K <> 0%Qc -> bvars b = bvars b' ->
  (forall s, In s (states (bvars b)) -> weight b ev s = (K * weight b' ev' s)%Qc) -> forall q, posterior b ev q = posterior b' ev' q.
Proof.
  intros HK BV H q. assert (M : forall q, mass b ev q = (K * mass b' ev' q)%Qc).
  { intros q'. unfold mass. rewrite <- qsum_mult_l, <- BV. apply qsum_map_ext. intros s Hs. apply filter_In in Hs as [Hs _]. apply H, Hs. }
  unfold posterior. rewrite !M. destruct (Qc_eq_dec (mass b' ev' []) 0) as [E|N].
  - rewrite E. replace (K * 0)%Qc with 0%Qc by ring. reflexivity.
  - rewrite !(proj2 (qeqb_false _ _)); [field; auto|exact N|]. intros E. apply Qcmult_integral in E as [E|E]; contradiction.
Qed.

Section Bridge.
Variables b0 two : bn.
Variable trans : list (string * string).
Notation sb := (slice_bn b0 two trans).
Hypothesis WI : wired b0 two trans.
Hypothesis W0 : wf_bn b0.
Hypothesis W2 : wf_bn two.
Hypothesis ST : stochastic_bn two.
Variable order : list string.
Hypothesis TO : topological two order.

(** What is given to the tree for the slice after [evs]. *)
Definition soft_tables (d : dict ndarray) : evidence := map (fun p => (fst p, Soft (data (snd p)))) d.
Definition evidence_of (evs : list evidence) (e : evidence) : evidence :=
  match evs with [] => e | e' :: evs' => e ++ soft_tables (fed_tables trans (sb evs') e') end.

(** Evidence for which the method works: hard, not on variables taken over,
    possible, and such that the 2-TBN's own distributions of the variables taken
    over cover the fed ones. *)
Record soft_ok (done : list evidence) (e : evidence) : Prop := {
  so_fits : fitting_evidence b0 two done e;
  so_hard : hard_only e;
  so_off : off_interface trans done e;
  so_possible : mass (sb done) e [] <> 0%Qc;
  so_covered : forall v p x, In (v, p) trans -> In x (values_of two v) -> posterior (sb done) e [(p, x)] <> 0%Qc -> posterior two [] [(v, x)] <> 0%Qc
}.

Lemma bridge e' evs e ev' q : hard_only e -> (forall v, In v (dkeys e) -> ~ In v (map fst trans)) ->
  meant two (evidence_of (e' :: evs) e) ev' -> posterior two ev' q = posterior (sb (e' :: evs)) e q.
Proof.
  intros HO OFF M. cbn [evidence_of] in M. apply (meant_app_hard two) in M as (r' & -> & M); [|exact HO].
  unfold soft_tables, fed_tables in M. rewrite map_map in M.
  apply (meant_softs two (fun vp => data (prior_table (sb evs) e' (snd vp))) trans (wi_nodup _ _ _ WI)) in M as (Z & kap & K & H).
  apply (posterior_scaled two (sb (e' :: evs)) (e ++ r') e (qprod (map (fun n => if mem (dn_name n) (map fst trans) then kap (dn_name n) else 1%Qc) (bnodes two)))).
  { clear - K. induction (bnodes two) as [|n l IH]; cbn; [intros H; apply (f_equal this) in H; discriminate|]. intros E.
    apply Qcmult_integral in E as [E|E]; [|contradiction]. destruct (mem _ _); [exact (K _ E)|apply (f_equal this) in E; discriminate]. }
  { cbn [slice_bn]. rewrite fed_bvars. reflexivity. }
  intros s Hs. unfold weight, joint. cbn [slice_bn]. unfold fed. cbn [bnodes]. rewrite !map_map. rewrite <- !qprod_mult. apply qprod_map_ext. intros n Hn.
  rewrite evw_fed. destruct (mem (dn_name n) (map fst trans)) eqn:MT.
  - apply mem_In in MT. assert (MT' := MT). apply in_map_iff in MT' as ((v & p) & Ev & I). cbn in Ev.
    destruct (H v p I) as (lv & D & EQ). assert (NE : dget (dn_name n) e = None).
    { apply dget_None. intros Y. exact (OFF _ Y MT). }
    rewrite (entry_fed b0 two trans WI W2 evs e' n s v p Hn I (eq_sym Ev) Hs).
    unfold evidence_weight. rewrite NE. rewrite (dget_app_r e r' _ NE), <- Ev, D.
    assert (L : In (look s v) (dn_values n)).
    { apply (states_legal (bvars two)) with (s := s) (v := v); [rewrite bnames_bvars; apply W2|exact Hs|]. unfold bvars. apply in_map_iff. exists n. rewrite Ev. auto. }
    assert (PA : dn_parents n = []) by exact (root_unique b0 two trans WI W2 v p n I Hn (eq_sym Ev)).
    assert (VV : values_of two v = dn_values n) by (rewrite Ev; apply values_of_node; assumption).
    assert (Lp : length (prior two v) = length (dn_values n)) by (unfold prior; rewrite map_length, VV; reflexivity).
    assert (PI : position (look s v) (dn_values n) < length (prior two v)) by (rewrite Lp, position_idx; apply idx_lt, L).
    specialize (EQ _ PI).
    assert (E1 : nth (position (look s v) (dn_values n)) (prior two v) 0%Qc = entry n s).
    { unfold prior. rewrite VV. rewrite (nth_indep _ 0%Qc (posterior two [] [(v, "")])) by (rewrite map_length, position_idx; apply idx_lt, L).
      rewrite (map_nth (fun x => posterior two [] [(v, x)])). rewrite position_idx, nth_idx by exact L. rewrite Ev.
      rewrite (root_prior two W2 ST order TO n _ Hn PA) by (rewrite <- Ev; exact L). unfold entry. rewrite PA. cbn [map fst snd].
      unfold look at 1. cbn [dget]. rewrite String.eqb_refl. reflexivity. }
    assert (E2 : nth (position (look s v) (dn_values n)) (data (prior_table (sb evs) e' (snd (v, p)))) 0%Qc = posterior (sb evs) e' [(p, look s v)]).
    { cbn [prior_table data snd]. rewrite (slice_values b0 two trans WI evs p v I), VV.
      rewrite (nth_indep _ 0%Qc (posterior (sb evs) e' [(p, "")])) by (rewrite map_length, position_idx; apply idx_lt, L).
      rewrite (map_nth (fun x => posterior (sb evs) e' [(p, x)])). rewrite position_idx, nth_idx by exact L. reflexivity. }
    rewrite E1, E2 in EQ. rewrite EQ. ring.
  - assert (MT' := MT). apply mem_nIn in MT'. unfold fed1. rewrite dget_tables_none by exact MT'.
    assert (E : evidence_weight (e ++ r') n s = evidence_weight e n s).
    { unfold evidence_weight. destruct (dget (dn_name n) e) as [x|] eqn:D; [rewrite (dget_app_l e r' _ x D); reflexivity|].
      rewrite (dget_app_r e r' _ D), (Z _ MT'). reflexivity. }
    rewrite E. ring.
Qed.
End Bridge.

(** ** Sessions *)
Lemma dset_app {A} (d : dict A) v x : ~ In v (dkeys d) -> dset v x d = d ++ [(v, x)].
Proof.
  induction d as [|(u & y) d IH]; intros N; [reflexivity|]. cbn in *. rewrite eqb_neq_s by (intros ->; tauto). rewrite IH by tauto. reflexivity.
Qed.

Lemma update_app {A} (l d : dict A) : NoDup (dkeys l) -> (forall v, In v (dkeys l) -> ~ In v (dkeys d)) -> dupdate d l = d ++ l.
Proof.
  unfold dupdate. revert d. induction l as [|(v & x) l IH]; intros d ND D; cbn; [rewrite app_nil_r; reflexivity|].
  cbn in ND. inversion ND as [|? ? Nv ND']; subst. rewrite dset_app by (apply D; left; reflexivity). rewrite IH.
  - rewrite <- app_assoc. reflexivity.
  - exact ND'.
  - intros u Hu Hd. unfold dkeys in Hd. rewrite map_app in Hd. apply in_app_or in Hd as [Hd|[E|[]]]; [apply (D u (or_intror Hu) Hd)|]. cbn in E. subst. contradiction.
Qed.

Lemma reports_values b b' f Q P P' : (forall v, values_of b v = values_of b' v) -> (forall q, P q = P' q) -> reports b f Q P -> reports b' f Q P'.
Proof.
  intros V E (R1 & R2 & R3 & R4 & R5 & R6 & R7). split; [exact R1|]. split; [exact R2|].
  split; [intros v Hv; rewrite <- V; apply R3, Hv|]. split; [exact R4|].
  split; [rewrite R5; apply map_ext; intros v; rewrite V; reflexivity|]. split; [exact R6|].
  intros q (Q1 & Q2 & Q3). rewrite <- E. apply R7. split; [exact Q1|]. split; [exact Q2|]. intros v x Hx. rewrite V. apply Q3, Hx.
Qed.

Section SoftTrees.
Context {SO : SetOrder}.

Definition tree_means (s : mstate) (first : bool) (b : bn) (e : evidence) : Prop :=
  exists t b', mtree s = Some (first, t) /\ same_arcs b' b /\ reaches b' t (Some (b, e, true)).

Lemma means_has s first b e : tree_means s first b e -> has_tree s first b.
Proof. intros (t & b' & E & SA & R). exists t, b', (Some (b, e, true)). auto. Qed.

Lemma set_means s first b e : has_tree s first b -> wf_bn b -> nonneg_bn b -> ev_ok b e -> incl (dkeys e) (bnames b) -> supported b e -> slice_net s first = b ->
  exists s', on_tree s (fun b t => set_evidence b e true t) = (s', Ok tt) /\ tree_means s' first b e /\ same_rest s s'.
Proof.
  intros (t & b' & k & E & SA & R) WB NN EV K SP N. unfold on_tree. rewrite E, N.
  destruct (calls_succeed b' t _ b e R SA WB NN EV K) as (_ & _ & O & _). exists (with_tree s (Some (first, fst (set_evidence b e true t)))).
  rewrite (O SP). split; [reflexivity|]. split; [|apply same_rest_tree].
  exists (fst (set_evidence b e true t)), b'. split; [reflexivity|]. split; [exact SA|]. exact (R_posterior b' b e t _ R SA WB NN EV K SP).
Qed.

Lemma query_means s first b e Q : tree_means s first b e -> tree_means (fst (dmarginals s Q)) first b e.
Proof.
  intros (t & b' & E & SA & R). unfold dmarginals, on_tree. rewrite E. eexists _, b'. split; [reflexivity|]. split; [exact SA|]. apply R_query, R.
Qed.

Lemma means_answer s first b e Q n P : tree_means s first b e -> (forall ev' q, meant b e ev' -> posterior b ev' q = P q) ->
  In n (bnodes b) -> NoDup Q -> incl Q (dn_name n :: map fst (dn_parents n)) ->
  exists f, snd (dmarginals s Q) = Ok f /\ reports b f Q P.
Proof.
  intros (t & b' & E & SA & R) HP Hn ND I.
  assert (In (dn_name n, map fst (dn_parents n)) (map (fun n => (dn_name n, map fst (dn_parents n))) (bnodes b'))) as Hn'.
  { rewrite SA. exact (in_map (fun n => (dn_name n, map fst (dn_parents n))) _ _ Hn). }
  apply in_map_iff in Hn' as (n' & En & Hn'). injection En as E1 E2. rewrite <- E1, <- E2 in I.
  destruct (history_marginals b' t b e true Q R ND (family_answers b' t _ n' Q R Hn' I)) as (ev' & f & M & Ef & Rf).
  exists f. split; [unfold dmarginals, on_tree; rewrite E; exact Ef|].
  eapply reports_values; [reflexivity| |exact Rf]. intros q. apply HP, M.
Qed.

Lemma means_table s first b e v B E' : tree_means s first b e -> (forall ev' q, meant b e ev' -> posterior b ev' q = posterior B E' q) -> wf_bn B ->
  (forall u, values_of b u = values_of B u) -> In v (bnames b) -> In v (bnames B) ->
  exists s', slice_table s v = (s', Ok (prior_table B E' v)) /\ tree_means s' first b e /\ same_rest s s'.
Proof.
  intros K HP WB VV Hv HvB. assert (K' := query_means s first b e [v] K). assert (R' := query_rest s [v]).
  assert (exists n, In n (bnodes b) /\ dn_name n = v) as (n & Hn & En) by (apply in_map_iff in Hv as (n & En & Hn); eauto).
  destruct (means_answer s first b e [v] n (posterior B E') K HP Hn) as (f & Ef & Rf); [constructor; [tauto|constructor]|intros u [<-|[]]; left; exact En|].
  assert (RB : reports B f [v] (posterior B E')) by (eapply reports_values; [exact VV|reflexivity|exact Rf]).
  unfold slice_table. destruct (dmarginals s [v]) as [s' r] eqn:D. cbn [fst snd] in *. subst r.
  exists s'. rewrite (potential_whole b f _ _ Rf), (reports_table B f v E' WB HvB RB). auto.
Qed.
End SoftTrees.

Lemma single_total b : wf_bn b -> nonneg_bn b -> forall ev v, ev_ok b ev -> In v (bnames b) -> mass b ev [] <> 0%Qc ->
  qsum (map (fun x => posterior b ev [(v, x)]) (values_of b v)) = 1%Qc.
Proof.
  intros WB NN ev v EV Hv M.
  assert (V := bnames_bvars b). assert (X : qsum (map (fun x => mass b ev [(v, x)]) (values_of b v)) = mass b ev []).
  { unfold mass. rewrite (qsum_map_ext _ (fun x => qsum (map (fun s => if String.eqb (look s v) x then weight b ev s else 0%Qc) (states (bvars b))))).
    2: { intros x _. rewrite qsum_filter. apply qsum_map_ext. intros s _. unfold agrees. cbn. rewrite andb_true_r. reflexivity. }
    rewrite qsum_swap. rewrite qsum_filter. apply qsum_map_ext. intros s Hs. cbn [agrees forallb].
    assert (L : In (look s v) (values_of b v)).
    { apply (states_legal (bvars b)) with (s := s) (v := v); [rewrite V; apply WB|exact Hs|]. apply bvars_in; assumption. }
    assert (ND : NoDup (values_of b v)).
    { destruct (in_bnames b v Hv) as (n & Hn & <-). rewrite (values_of_node b WB n Hn). apply (wn_values _ _ (wb_nodes _ WB n Hn)). }
    revert L ND. generalize (values_of b v). intros l. induction l as [|x l IH]; intros L ND; [destruct L|]. cbn [map qsum]. inversion ND as [|? ? Nx ND']; subst.
    destruct (String.eqb_spec (look s v) x) as [E|N].
    - rewrite qsum_zero; [ring|]. intros y Hy. rewrite eqb_neq_s; [reflexivity|]. intros E'. apply Nx. rewrite <- E, E'. exact Hy.
    - destruct L as [L|L]; [congruence|]. rewrite IH by assumption. ring. }
  unfold posterior. rewrite (proj2 (qeqb_false _ _)) by exact M.
  rewrite (qsum_map_ext _ (fun x => / mass b ev [] * mass b ev [(v, x)])%Qc) by (intros x _; unfold Qcdiv; ring).
  rewrite qsum_mult_l, X. field. exact M.
Qed.

Section Soft.
Context {SO : SetOrder}.
Variable h : heap.
Variable d : dbnet.
Notation b0 := (view (mkW h (db0 d))).
Notation two := (view (mkW h (dtwo d))).
Notation trans := (dtrans d).
Notation sb := (slice_bn b0 two trans).
Notation ok := (soft_ok b0 two trans).
Notation base evs := (slice_base b0 two (length evs)).
Hypothesis TR : trackable b0 two trans.
Hypothesis ST : stochastic_bn two.
Variable order : list string.
Hypothesis TO : topological two order.

Let W0 : wf_bn b0. Proof. destruct (tr_b0 _ _ _ TR) as (o & _ & U). apply U. Qed.
Let W2 : wf_bn two. Proof. destruct (tr_two _ _ _ TR) as (o & _ & U). apply U. Qed.
Let WI : wired b0 two trans := tr_wired _ _ _ TR.

Fixpoint soft_legal (evs : list evidence) : Prop := match evs with [] => True | e :: evs' => ok evs' e /\ soft_legal evs' end.
Lemma soft_legal_evs evs : soft_legal evs -> legal_evs b0 two evs.
Proof. induction evs as [|e evs IH]; [auto|]. intros [O L]. split; [apply O|apply IH, L]. Qed.

Lemma base_suited (evs : list evidence) : suited (base evs). Proof. destruct evs; apply TR. Qed.
Lemma base_wf (evs : list evidence) : wf_bn (base evs). Proof. destruct evs; assumption. Qed.
Lemma base_nonneg (evs : list evidence) : nonneg_bn (base evs). Proof. destruct evs; apply TR. Qed.

(** The meaning of the evidence given to the tree. *)
Lemma meant_answer evs e ev' q : ok evs e -> meant (base evs) (evidence_of b0 two trans evs e) ev' -> posterior (base evs) ev' q = posterior (sb evs) e q.
Proof.
  intros O M. destruct evs as [|e' evs].
  - cbn [evidence_of length slice_base slice_bn] in *. rewrite <- (app_nil_r e) in M. apply meant_app_hard in M as (r' & -> & M); [|apply O].
    inversion M; subst. rewrite app_nil_r. reflexivity.
  - exact (bridge b0 two trans WI W2 ST order TO e' evs e ev' q (so_hard _ _ _ _ _ O) (so_off _ _ _ _ _ O ltac:(discriminate)) M).
Qed.

Lemma keys_softs evs e : dkeys (soft_tables (fed_tables trans (sb evs) e)) = map fst trans.
Proof. unfold dkeys, soft_tables, fed_tables. rewrite !map_map. reflexivity. Qed.

Lemma given_evidence evs e : ok evs e -> soft_legal evs -> ev_ok (base evs) (evidence_of b0 two trans evs e) /\
  incl (dkeys (evidence_of b0 two trans evs e)) (bnames (base evs)) /\ supported (base evs) (evidence_of b0 two trans evs e).
Proof.
  intros O L. destruct (so_fits _ _ _ _ _ O) as [F1 F2]. assert (OFF := so_off _ _ _ _ _ O). assert (HO := so_hard _ _ _ _ _ O).
  destruct evs as [|e' evs].
  { cbn [evidence_of]. split; [exact F1|]. split; [exact F2|]. intros v q I. destruct (HO v _ I) as (y & X). discriminate. }
  specialize (OFF ltac:(discriminate)). cbn [evidence_of length slice_base] in *. destruct L as [O' L]. assert (LE := soft_legal_evs evs L).
  assert (SI : forall v x, In (v, x) (soft_tables (fed_tables trans (sb evs) e')) -> exists p, In (v, p) trans /\ x = Soft (map (fun y => posterior (sb evs) e' [(p, y)]) (values_of two v))).
  { intros v x H. unfold soft_tables, fed_tables in H. rewrite map_map in H. apply in_map_iff in H as ((v' & p) & E & I). cbn in E. injection E as <- <-.
    exists p. split; [exact I|]. rewrite (slice_values b0 two trans WI evs p v' I). reflexivity. }
  assert (NNe : nonneg_bn (sb evs)) by (apply slice_nonneg; try assumption; apply TR).
  assert (EVe : ev_ok (sb evs) e') by (apply slice_ev_ok, O').
  assert (PN : forall q, (0 <= posterior (sb evs) e' q)%Qc) by (intros q; apply posterior_nonneg; [apply slice_wf; assumption|exact NNe|exact EVe]).
  split; [|split].
  - split.
    + unfold dkeys. rewrite map_app. apply NoDup_app_disj; [apply F1|fold (dkeys (soft_tables (fed_tables trans (sb evs) e'))); rewrite keys_softs; apply WI|].
      intros v H1 H2. apply (OFF v H1). rewrite <- (keys_softs evs e'). exact H2.
    + intros v x I Hv. apply in_app_or in I as [I|I]; [apply (proj2 F1 v x I Hv)|]. destruct (SI v x I) as (p & _ & ->). rewrite map_length. split; [reflexivity|].
      apply Forall_forall. intros y Hy. apply in_map_iff in Hy as (z & <- & _). apply PN.
  - intros v H. unfold dkeys in H. rewrite map_app in H. apply in_app_or in H as [H|H]; [apply F2, H|]. fold (dkeys (soft_tables (fed_tables trans (sb evs) e'))) in H. rewrite keys_softs in H.
    exact (trans_in_two b0 two trans WI v H).
  - intros v q I. apply in_app_or in I as [I|I]; [destruct (HO v _ I) as (y & X); discriminate|]. destruct (SI v _ I) as (p & Ip & E). injection E as ->. rewrite map_length. split.
    + assert (Hp : In p (bnames (sb evs))) by (rewrite slice_bnames; destruct evs; cbn [length slice_base]; [apply (wi_b0 _ _ _ WI v p Ip)|apply (wi_two _ _ _ WI v p Ip)]).
      destruct (Forall_Exists_dec (fun x : Qc => x = 0%Qc) (fun x => Qc_eq_dec x 0%Qc) (map (fun y => posterior (sb evs) e' [(p, y)]) (values_of two v))) as [Z|Z].
      * exfalso. assert (D := single_total (sb evs) (slice_wf b0 two trans WI W0 W2 evs) NNe e' p EVe Hp (so_possible _ _ _ _ _ O')).
        rewrite (slice_values b0 two trans WI evs p v Ip) in D. rewrite <- (map_id (map _ _)) in D. rewrite qsum_zero in D; [apply (f_equal this) in D; discriminate|].
        rewrite Forall_forall in Z. exact Z.
      * apply Exists_exists in Z as (x & Hx & Nx). apply (In_nth _ _ 0%Qc) in Hx as (i & Hi & <-). exists i. rewrite map_length in Hi. split; [exact Hi|].
        apply Qc_nonneg_neq0_pos; [|exact Nx]. apply nth_Forall_nonneg. apply Forall_forall. intros y Hy. apply in_map_iff in Hy as (z & <- & _). apply PN.
    + intros i Hi Z. rewrite (nth_indep _ 0%Qc (posterior (sb evs) e' [(p, "")])) by (rewrite map_length; exact Hi). rewrite (map_nth (fun y => posterior (sb evs) e' [(p, y)])).
      destruct (Qc_eq_dec (posterior (sb evs) e' [(p, nth i (values_of two v) "")]) 0) as [|NZ]; [assumption|].
      exfalso. apply (so_covered _ _ _ _ _ O' v p _ Ip (nth_In _ _ Hi) NZ). unfold prior in Z.
      rewrite (nth_indep _ 0%Qc (posterior two [] [(v, "")])) in Z by (rewrite map_length; exact Hi). rewrite (map_nth (fun y => posterior two [] [(v, y)])) in Z. exact Z.
Qed.

(** The invariant. *)
Record ssame (s : mstate) (done : list evidence) : Prop := {
  ss_t : mt s = length done;
  ss_heap : mheap s = h;
  ss_dbn : mdbn s = d;
  ss_trans : mtrans s = match done with [] => [] | e :: evs => fed_tables trans (sb evs) e end;
  ss_legal : soft_legal done;
  ss_tree : 2 <= length done -> has_tree s false two
}.
Record sinv (s : mstate) (done : list evidence) (p : waiting) (sh : option (list evidence)) : Prop := {
  si_same : ssame s done;
  si_flag : mflag s = match p with Nothing => false | _ => true end;
  si_pending : forall e, p = Pending e -> sh = Some (e :: done);
  si_shown : match sh with
             | None => True
             | Some [] => False
             | Some (e :: evs) => ok evs e /\ soft_legal evs /\ (evs = done \/ done = e :: evs) /\
                                  tree_means s (is_nil evs) (base evs) (evidence_of b0 two trans evs e)
             end
}.

Lemma soft_net s done : ssame s done -> slice_net s (is_nil done) = base done.
Proof. intros P. unfold slice_net. rewrite (ss_heap _ _ P), (ss_dbn _ _ P). destruct done; reflexivity. Qed.

Lemma ssame_rest s s' done : ssame s done -> same_rest s s' -> (2 <= length done -> has_tree s' false two) -> ssame s' done.
Proof. intros [] (E1 & E2 & E3 & E4 & E5) T. constructor; try congruence; assumption. Qed.

Lemma soft_prepare s done : ssame s done ->
  exists s', match mt s with 0 => new_tree s true | 1 => new_tree s false | _ => (s, Ok tt) end = (s', Ok tt) /\
    has_tree s' (is_nil done) (base done) /\ same_rest s s'.
Proof.
  intros P. assert (N := soft_net s done P). rewrite (ss_t _ _ P). destruct done as [|e [|e' done]]; cbn [length is_nil slice_base] in *.
  - destruct (created_knows s true b0 N (tr_b0 _ _ _ TR) (tr_nn0 _ _ _ TR)) as (s' & E & K & R). exists s'. split; [exact E|]. split; [eapply knows_has, K|exact R].
  - destruct (created_knows s false two N (tr_two _ _ _ TR) (tr_nn _ _ _ TR)) as (s' & E & K & R). exists s'. split; [exact E|]. split; [eapply knows_has, K|exact R].
  - exists s. split; [reflexivity|]. split; [apply (ss_tree _ _ P); cbn; lia|apply same_rest_refl].
Qed.

(** The evidence handed to the tree. *)
Lemma handed s done e : ssame s done -> ok done e ->
  match mt s with 0 => e | _ => dupdate e (map (fun p => (fst p, Soft (data (snd p)))) (mtrans s)) end = evidence_of b0 two trans done e.
Proof.
  intros P O. rewrite (ss_t _ _ P), (ss_trans _ _ P). destruct done as [|e' done]; [reflexivity|]. cbn [length evidence_of]. fold (soft_tables (fed_tables trans (sb done) e')).
  apply update_app; rewrite keys_softs; [apply WI|]. intros v H1 H2. exact (so_off _ _ _ _ _ O ltac:(discriminate) v H2 H1).
Qed.

Lemma soft_evidence s done ev : ssame s done -> ok done (given ev) ->
  exists s', set_evidence_ SoftEvidence s ev None = (s', Ok tt) /\ tree_means s' (is_nil done) (base done) (evidence_of b0 two trans done (given ev)) /\ same_rest s s'.
Proof.
  intros P O. destruct (soft_prepare s done P) as (s1 & E1 & K1 & R1). unfold set_evidence_. rewrite E1. cbn [seq_calls]. rewrite (handed s done (given ev) P O).
  destruct (given_evidence done (given ev) O (ss_legal _ _ P)) as (G1 & G2 & G3).
  destruct (set_means s1 (is_nil done) (base done) _ K1 (base_wf done) (base_nonneg done) G1 G2 G3) as (s2 & E2 & K2 & R2).
  - rewrite (slice_net_same _ _ _ R1). apply soft_net, P.
  - exists s2. split; [exact E2|]. split; [exact K2|]. exact (same_rest_trans _ _ _ R1 R2).
Qed.

Lemma soft_any s done ev kw : ssame s done ->
  (2 <= length done -> has_tree (fst (set_evidence_ SoftEvidence s ev kw)) false two) /\ same_rest s (fst (set_evidence_ SoftEvidence s ev kw)).
Proof.
  intros P. unfold set_evidence_. destruct kw as [x|]; [split; [apply P|apply same_rest_refl]|].
  destruct (soft_prepare s done P) as (s1 & E1 & K1 & R1). rewrite E1. cbn [seq_calls].
  match goal with |- context [on_tree s1 (fun b t => set_evidence b ?E true t)] => destruct (any_has s1 (is_nil done) (base done) E true K1) as [H R] end.
  split; [|exact (same_rest_trans _ _ _ R1 R)]. intros L. destruct done as [|e done]; [cbn in L; lia|]. exact H.
Qed.

Lemma feed_soft_all done e l : incl l trans -> NoDup (map fst l) -> ok done e -> forall s,
  tree_means s (is_nil done) (base done) (evidence_of b0 two trans done e) -> (forall v, In v (map fst l) -> ~ In v (dkeys (mtrans s))) ->
  exists s', feed_all feed_soft l s = (s', Ok tt) /\ tree_means s' (is_nil done) (base done) (evidence_of b0 two trans done e) /\
    mheap s' = mheap s /\ mdbn s' = mdbn s /\ mt s' = mt s /\ mflag s' = mflag s /\
    mtrans s' = mtrans s ++ map (fun vp => (fst vp, prior_table (sb done) e (snd vp))) l.
Proof.
  intros I ND O. induction l as [|(v & p) l IH]; intros s K D.
  { exists s. cbn. rewrite app_nil_r. auto 10. }
  cbn [map fst] in ND. inversion ND as [|? ? Nv ND']; subst x l0.
  assert (Iv : In (v, p) trans) by (apply I; left; reflexivity).
  assert (Hp : In p (bnames (base done))) by (destruct done; cbn [length slice_base]; [apply (wi_b0 _ _ _ WI v p Iv)|apply (wi_two _ _ _ WI v p Iv)]).
  destruct (means_table s _ _ _ p (sb done) e K (fun ev' q M => meant_answer done e ev' q O M) (slice_wf b0 two trans WI W0 W2 done)
     (fun u => eq_sym (slice_values_of b0 two trans done u)) Hp) as (s1 & E1 & K1 & R1); [rewrite slice_bnames; exact Hp|].
  cbn [feed_all]. unfold feed_soft at 1. rewrite E1. cbn [seq_calls]. destruct R1 as (A1 & A2 & A3 & A4 & A5).
  assert (Ds : dset v (prior_table (sb done) e p) (mtrans s1) = mtrans s ++ [(v, prior_table (sb done) e p)]).
  { rewrite A5. apply dset_app, D. left. reflexivity. }
  destruct (IH (fun x Hx => I x (or_intror Hx)) ND' (with_trans s1 (dset v (prior_table (sb done) e p) (mtrans s1)))) as (s2 & E2 & K2 & B1 & B2 & B3 & B4 & B5).
  - destruct K1 as (t & b' & X). exists t, b'. exact X.
  - intros u Hu Hd. cbn [with_trans mtrans] in Hd. rewrite Ds in Hd. unfold dkeys in Hd. rewrite map_app in Hd. apply in_app_or in Hd as [Hd|[Hd|[]]].
    + exact (D u (or_intror Hu) Hd). + cbn in Hd. subst. contradiction.
  - exists s2. split; [exact E2|]. split; [exact K2|]. cbn [with_trans mheap mdbn mt mflag mtrans] in *. rewrite Ds in B5. repeat (split; [congruence|]). rewrite B5, <- app_assoc. reflexivity.
Qed.

Lemma soft_unroll s done e : ssame s done -> ok done e -> tree_means s (is_nil done) (base done) (evidence_of b0 two trans done e) ->
  exists s', unroll_ SoftEvidence s = (s', Ok tt) /\ ssame s' (e :: done) /\ tree_means s' (is_nil done) (base done) (evidence_of b0 two trans done e) /\ mflag s' = mflag s.
Proof.
  intros P O K. unfold unroll_. rewrite (ss_dbn _ _ P).
  destruct (feed_soft_all done e trans (incl_refl _) (wi_nodup _ _ _ WI) O (with_trans s [])) as (s1 & E1 & K1 & A1 & A2 & A3 & A4 & A5).
  { destruct K as (t & b' & X). exists t, b'. exact X. } { cbn. auto. }
  rewrite E1. cbn [seq_calls]. exists (tick s1). cbn [with_trans mheap mdbn mt mflag mtrans] in *. split; [reflexivity|].
  assert (KT : tree_means (tick s1) (is_nil done) (base done) (evidence_of b0 two trans done e)) by exact K1.
  split; [|auto]. constructor; cbn [tick mt mheap mdbn mtrans].
  - rewrite A3, (ss_t _ _ P). reflexivity.
  - rewrite A1. apply P.
  - rewrite A2. apply P.
  - rewrite A5. reflexivity.
  - split; [exact O|apply P].
  - intros L. destruct done as [|e' done]; [cbn in L; lia|]. eapply means_has, KT.
Qed.

Lemma ssame_flag s done x : ssame s done -> ssame (with_flag s x) done.
Proof. intros []. constructor; assumption. Qed.
Lemma means_flag s x first b e : tree_means s first b e -> tree_means (with_flag s x) first b e.
Proof. intros (t & b' & X). exists t, b'. exact X. Qed.

Lemma soft_failed s done p sh ev kw s' : sinv s done p sh -> s' = fst (set_evidence_ SoftEvidence s ev kw) -> sinv s' done (spoil p) None.
Proof.
  intros V ->. assert (P := si_same _ _ _ _ V). destruct (soft_any s done ev kw P) as [T R]. constructor.
  - exact (ssame_rest _ _ _ P R T).
  - destruct R as (_ & _ & _ & -> & _). rewrite (si_flag _ _ _ _ V). destruct p; reflexivity.
  - destruct p; discriminate.
  - exact I.
Qed.

Lemma ssame_evidence s s' done : ssame s done -> same_rest s s' -> has_tree s' (is_nil done) (base done) -> ssame s' done.
Proof. intros P R T. apply (ssame_rest s s' done P R). intros L. destruct done; [cbn in L; lia|exact T]. Qed.

Theorem soft_session s done p sh : session SoftEvidence ok h d s done p sh -> sinv s done p sh.
Proof.
  induction 1 as [|s done p sh ev kw S IH F|s done p sh ev kw S IH W KW F|s done e sh kw S IH|s done p sh Q S IH|s done p sh ev kw x S IH E|s done p sh ev kw x S IH W E].
  - constructor; [|reflexivity|discriminate|exact I]. constructor; cbn; auto. lia.
  - assert (P := si_same _ _ _ _ IH). destruct (soft_evidence s done ev P F) as (s1 & E1 & K1 & R1).
    cbn [mexec]. unfold dset_evidence. rewrite E1. cbn [seq_calls fst]. constructor.
    + apply ssame_flag, (ssame_evidence s); [exact P|exact R1|]. eapply means_has, K1.
    + reflexivity.
    + intros e E. injection E as <-. reflexivity.
    + split; [exact F|]. split; [apply P|]. split; [left; reflexivity|]. apply means_flag, K1.
  - assert (P := si_same _ _ _ _ IH). cbn in KW. subst kw. destruct (soft_evidence s done ev P F) as (s1 & E1 & K1 & R1).
    cbn [mexec]. unfold dunroll. replace (negb (mflag s) || match ev with Some _ => true | None => false end) with true.
    2: { rewrite (si_flag _ _ _ _ IH). destruct W as [->|W]; [reflexivity|]. destruct ev; [|congruence]. destruct p; reflexivity. }
    rewrite E1. cbn [seq_calls]. assert (P1 : ssame s1 done) by (apply (ssame_evidence s); [exact P|exact R1|eapply means_has, K1]).
    destruct (soft_unroll s1 done (given ev) P1 F K1) as (s2 & E2 & P2 & K2 & F2). rewrite E2. cbn [seq_calls fst]. constructor.
    + apply ssame_flag, P2.
    + reflexivity.
    + discriminate.
    + split; [exact F|]. split; [apply P1|]. split; [right; reflexivity|]. apply means_flag, K2.
  - assert (P := si_same _ _ _ _ IH). cbn [mexec]. unfold dunroll. rewrite (si_flag _ _ _ _ IH). cbn [negb orb seq_calls].
    assert (SH := si_pending _ _ _ _ IH e eq_refl). subst sh. destruct (si_shown _ _ _ _ IH) as (F & L & _ & K).
    destruct (soft_unroll s done e P F K) as (s2 & E2 & P2 & K2 & F2). rewrite E2. cbn [seq_calls fst]. constructor.
    + apply ssame_flag, P2.
    + reflexivity.
    + discriminate.
    + split; [exact F|]. split; [exact L|]. split; [right; reflexivity|]. apply means_flag, K2.
  - cbn [mexec fst]. assert (P := si_same _ _ _ _ IH). assert (R := query_rest s Q). constructor.
    + apply (ssame_rest s); [exact P|exact R|]. intros L. apply query_has, P, L.
    + destruct R as (_ & _ & _ & -> & _). apply IH.
    + apply IH.
    + assert (X := si_shown _ _ _ _ IH). destruct sh as [[|e evs]|]; [exact X| |exact X]. destruct X as (X1 & X2 & X3 & X4). repeat (split; [assumption|]). apply query_means, X4.
  - apply (soft_failed s done p sh ev None); [exact IH|]. cbn [mexec] in *. unfold dset_evidence in *. destruct (set_evidence_ SoftEvidence s ev None) as [s1 [u|y]]; [discriminate|reflexivity].
  - apply (soft_failed s done p sh ev kw); [exact IH|]. cbn [mexec]. unfold dunroll. replace (negb (mflag s) || match ev with Some _ => true | None => false end) with true.
    2: { rewrite (si_flag _ _ _ _ IH). destruct W as [->|W]; [reflexivity|]. destruct ev; [|congruence]. destruct p; reflexivity. }
    destruct (set_evidence_ SoftEvidence s ev kw) as [s1 [u|y]]; [discriminate|reflexivity].
Qed.

Theorem soft_answers s done p e evs n Q : session SoftEvidence ok h d s done p (Some (e :: evs)) ->
  In n (bnodes (base evs)) -> NoDup Q -> incl Q (dn_name n :: map fst (dn_parents n)) ->
  exists f, snd (dmarginals s Q) = Ok f /\ reports (base evs) f Q (posterior (sb evs) e).
Proof.
  intros S Hn ND I. destruct (si_shown _ _ _ _ (soft_session _ _ _ _ S)) as (O & L & _ & K).
  exact (means_answer s _ _ _ Q n (posterior (sb evs) e) K (fun ev' q M => meant_answer evs e ev' q O M) Hn ND I).
Qed.
End Soft.
