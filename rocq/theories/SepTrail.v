(** Evidence that no trail from the query reaches does not change the answer. *)
From Verif Require Import Base BaseFacts NDArray NDArrayFacts SumCalc Factor FactorFacts Exact Spec SpecFacts HuginPure DecNorm SepSpec SepRelevant.
From Coq Require Import Field.

Section Sep.
Variable b : bn.
Hypothesis WB : wf_bn b.
Variable ev ev' : evidence.
Notation dom := (values_of b).
Notation card := (card dom).

(** ** The set that trails reach *)

Definition pinb (v : string) : bool :=
  match dget v ev, dget v ev' with Some (Hard x), Some (Hard y) => String.eqb x y | _, _ => false end.

Lemma pinb_ok v : pinb v = true <-> pinned ev ev' v.
Proof.
  unfold pinb, pinned. split.
  - destruct (dget v ev) as [[x|l]|]; try discriminate. destruct (dget v ev') as [[y|l]|]; try discriminate.
    intros E. apply String.eqb_eq in E as <-. exists x; auto.
  - intros (x & -> & ->). apply String.eqb_refl.
Qed.

Lemma pinb_no v : pinb v = false <-> ~ pinned ev ev' v.
Proof. rewrite <- pinb_ok. destruct (pinb v); intuition congruence. Qed.

Definition relb (u v : string) : bool := existsb (fun n => mem u (family n) && mem v (family n)) (bnodes b).

Lemma relb_ok u v : relb u v = true <-> related b u v.
Proof.
  unfold relb, related. rewrite existsb_exists. split.
  - intros (n & Hn & H). apply andb_true_iff in H as [A B]. exists n. rewrite !mem_In in *. auto.
  - intros (n & Hn & A & B). exists n. split; [exact Hn|]. apply andb_true_iff. rewrite !mem_In. auto.
Qed.

Lemma related_name u v : related b u v -> In v (bnames b).
Proof. intros (n & Hn & _ & H). apply (from_node_scope b WB n v Hn). exact H. Qed.

Lemma saturate (good : string -> Prop) : (forall v w, good v -> related b v w -> ~ pinned ev ev' w -> good w) ->
  forall k A, length (filter (fun v => negb (mem v A)) (bnames b)) <= k -> (forall v, In v A -> good v) ->
  exists A', incl A A' /\ (forall v, In v A' -> good v) /\
    (forall v w, In v A' -> related b v w -> ~ pinned ev ev' w -> In w A').
Proof.
  intros G. induction k as [|k IH]; intros A L GA.
  - exists A. split; [apply incl_refl|]. split; [exact GA|]. intros v w _ R _. apply related_name in R.
    destruct (In_dec_s w A) as [X|X]; [exact X|]. exfalso.
    assert (H : In w (filter (fun v => negb (mem v A)) (bnames b))) by (apply filter_In; split; [exact R|]; apply negb_true_iff, mem_nIn, X).
    destruct (filter (fun v => negb (mem v A)) (bnames b)); [exact H|cbn in L; lia].
  - destruct (find (fun w => negb (mem w A) && negb (pinb w) && existsb (fun v => relb v w) A) (bnames b)) as [w|] eqn:F.
    + apply find_some in F as [Hw H]. rewrite !andb_true_iff, !negb_true_iff in H. destruct H as ((H1 & H2) & H3).
      apply existsb_exists in H3 as (v & Hv & R). apply relb_ok in R. apply pinb_no in H2. apply mem_nIn in H1.
      destruct (IH (w :: A)) as (A' & I & GA' & C).
      * assert (X : length (filter (fun v => negb (mem v (w :: A))) (bnames b)) < length (filter (fun v => negb (mem v A)) (bnames b))).
        { clear - Hw H1. induction (bnames b) as [|u l IHl]; [destruct Hw|]. cbn [filter].
          assert (LE : length (filter (fun v => negb (mem v (w :: A))) l) <= length (filter (fun v => negb (mem v A)) l)).
          { clear. induction l as [|u l IHl]; [apply le_n|]. cbn [filter].
            assert (M : mem u A = true -> mem u (w :: A) = true) by (rewrite !mem_In; intros; right; assumption).
            destruct (mem u A) eqn:E; [rewrite (M eq_refl); cbn [negb]; exact IHl|].
            destruct (mem u (w :: A)); cbn [negb length]; lia. }
          destruct Hw as [->|Hw].
          - assert (E1 : mem w (w :: A) = true) by (apply mem_In; left; reflexivity). apply mem_nIn in H1. rewrite E1, H1. cbn [negb length]. lia.
          - specialize (IHl Hw). destruct (mem u A) eqn:E.
            + assert (E1 : mem u (w :: A) = true) by (apply mem_In; right; apply mem_In, E). rewrite E1. cbn [negb]. exact IHl.
            + destruct (mem u (w :: A)); cbn [negb length]; lia. }
        lia.
      * intros u [<-|Hu]; [exact (G v w (GA v Hv) R H2)|apply GA, Hu].
      * exists A'. split; [intros u Hu; apply I; right; exact Hu|]. split; assumption.
    + exists A. split; [apply incl_refl|]. split; [exact GA|]. intros v w Hv R NP.
      destruct (In_dec_s w A) as [X|X]; [exact X|]. exfalso. assert (Hw := related_name v w R).
      assert (N := find_none _ _ F w Hw). cbn in N. apply mem_nIn in X. rewrite X in N. apply pinb_no in NP. rewrite NP in N. cbn in N.
      assert (Y : existsb (fun v => relb v w) A = true) by (apply existsb_exists; exists v; split; [exact Hv|apply relb_ok, R]). congruence.
Qed.

(** ** The weight splits at a closed set *)

Section Closed.
Variable A : list string.
Hypothesis CL : forall v w, In v A -> related b v w -> ~ pinned ev ev' w -> In w A.
Hypothesis UP : forall v, In v A -> ~ pinned ev ev' v.
Hypothesis SAME : forall v, In v A -> dget v ev = dget v ev'.

(** Pinned variables at their observed values. *)
Definition over (a : asg) : asg := fun v =>
  if pinb v && mem v (bnames b) then match dget v ev with Some (Hard x) => idx x (dom v) | _ => 0 end else a v.

Definition near (n : dnode) : bool := existsb (fun u => mem u A) (family n).

Notation names P := (filter P (bnames b)).
Definition inA (v : string) : bool := mem v A.
Definition rest (v : string) : bool := negb (pinb v) && negb (mem v A).

Definition Pin (a : asg) : Qc := qprod (map (fun n => ievw ev n a) (filter (fun n => pinb (dn_name n)) (bnodes b))).
Definition Near (a : asg) : Qc := (qprod (map (fun n => feval (from_node n) a) (filter near (bnodes b)))
   * qprod (map (fun n => ievw ev n a) (filter (fun n => inA (dn_name n)) (bnodes b))))%Qc.
Definition Far (e : evidence) (a : asg) : Qc := (qprod (map (fun n => feval (from_node n) a) (filter (fun n => negb (near n)) (bnodes b)))
   * qprod (map (fun n => ievw e n a) (filter (fun n => rest (dn_name n)) (bnodes b))))%Qc.

Lemma qprod_filter {X} (P : X -> bool) (f : X -> Qc) l :
  qprod (map f l) = (qprod (map f (filter P l)) * qprod (map f (filter (fun x => negb (P x)) l)))%Qc.
Proof. rewrite <- qprod_app, <- map_app. apply qprod_perm, Permutation_map, filter_split. Qed.

Lemma inA_not_pin v : inA v = true -> pinb v = false.
Proof. intros H. apply pinb_no, UP, mem_In, H. Qed.

Lemma iweight_split e a : e = ev \/ e = ev' -> iweight b e a = (Pin a * (Near a * Far e a))%Qc.
Proof.
  intros He. unfold iweight, Near, Far. rewrite qprod_mult.
  rewrite (qprod_filter near (fun n => feval (from_node n) a) (bnodes b)).
  rewrite (qprod_filter (fun n => pinb (dn_name n)) (fun n => ievw e n a) (bnodes b)).
  rewrite (qprod_filter (fun n => inA (dn_name n)) (fun n => ievw e n a) (filter (fun n => negb (pinb (dn_name n))) (bnodes b))).
  assert (FF : forall (P R : dnode -> bool) l, filter P (filter R l) = filter (fun n => R n && P n) l).
  { intros P R l. induction l as [|x l IH]; cbn; [reflexivity|]. destruct (R x); cbn; rewrite ?IH; reflexivity. }
  rewrite !FF.
  assert (E1 : qprod (map (fun n => ievw e n a) (filter (fun n => pinb (dn_name n)) (bnodes b))) = Pin a).
  { unfold Pin. apply qprod_map_ext. intros n Hn. apply filter_In in Hn as [_ Hn]. apply pinb_ok in Hn as (x & X1 & X2).
    unfold ievw. destruct He as [->| ->]; rewrite ?X1, ?X2; reflexivity. }
  assert (E2 : filter (fun n => negb (pinb (dn_name n)) && inA (dn_name n)) (bnodes b) = filter (fun n => inA (dn_name n)) (bnodes b)).
  { apply filter_ext. intros n. destruct (inA (dn_name n)) eqn:X; [rewrite (inA_not_pin _ X); reflexivity|apply andb_false_r]. }
  rewrite E1, E2.
  assert (E3 : qprod (map (fun n => ievw e n a) (filter (fun n => inA (dn_name n)) (bnodes b))) =
               qprod (map (fun n => ievw ev n a) (filter (fun n => inA (dn_name n)) (bnodes b)))).
  { apply qprod_map_ext. intros n Hn. apply filter_In in Hn as [_ Hn]. apply mem_In in Hn. unfold ievw.
    destruct He as [->| ->]; [reflexivity|]. rewrite (SAME _ Hn). reflexivity. }
  rewrite E3. change (fun n => negb (pinb (dn_name n)) && negb (inA (dn_name n))) with (fun n => rest (dn_name n)). ring.
Qed.

Lemma pin_over a H : deps (bnames b) H -> (Pin a * H a = Pin a * H (over a))%Qc.
Proof.
  intros X. destruct (Qc_eq_dec (Pin a) 0%Qc) as [Z|Z]; [rewrite Z; ring|]. f_equal.
  apply X. intros v Hv. unfold over. destruct (pinb v) eqn:Pv; [|reflexivity]. assert (M := proj2 (mem_In v _) Hv). rewrite M. cbn [andb].
  apply (in_bnames b) in Hv as (n & Hn & <-).
  assert (P : ievw ev n a <> 0%Qc).
  { intros E. apply Z. unfold Pin. assert (I : In n (filter (fun n => pinb (dn_name n)) (bnodes b))) by (apply filter_In; auto).
    apply in_split in I as (l1 & l2 & ->). rewrite map_app, qprod_app. cbn [map qprod]. rewrite E. ring. }
  apply pinb_ok in Pv as (x & E1 & _). unfold ievw in P. rewrite E1 in P |- *. rewrite (values_of_node b WB n Hn).
  destruct (Nat.eqb_spec (a (dn_name n)) (idx x (dn_values n))) as [E|E]; [exact E|congruence].
Qed.

Lemma Pin_deps : deps (names pinb) Pin.
Proof.
  apply (qprod_map_deps _ (fun n a => ievw ev n a)). intros n Hn. apply filter_In in Hn as [Hn Pn].
  eapply deps_incl; [|apply ievw_deps]. intros v [<-|[]]. apply filter_In. split; [apply in_map, Hn|exact Pn].
Qed.

Lemma family_names n v : In n (bnodes b) -> In v (family n) -> In v (bnames b).
Proof. intros Hn Hv. exact (from_node_scope b WB n v Hn Hv). Qed.

Lemma near_family n v : In n (bnodes b) -> near n = true -> In v (family n) -> inA v = true \/ pinb v = true.
Proof.
  intros Hn H Hv. apply existsb_exists in H as (u & Hu & Mu). apply mem_In in Mu. destruct (pinb v) eqn:P; [auto|]. left.
  apply mem_In. apply (CL u v Mu); [exists n; auto|]. apply pinb_no, P.
Qed.

Lemma far_family n v : near n = false -> In v (family n) -> inA v = false.
Proof.
  intros H Hv. destruct (inA v) eqn:E; [|reflexivity]. exfalso. assert (near n = true); [|congruence].
  apply existsb_exists. exists v. split; [exact Hv|exact E].
Qed.

Lemma Near_deps : deps (names (fun v => inA v || pinb v)) Near.
Proof.
  unfold Near. apply deps_mult.
  - apply (qprod_map_deps _ (fun n a => feval (from_node n) a)). intros n Hn. apply filter_In in Hn as [Hn N].
    eapply deps_incl; [|apply feval_deps]. intros v Hv. apply filter_In. split; [exact (from_node_scope b WB n v Hn Hv)|].
    apply orb_true_iff. exact (near_family n v Hn N Hv).
  - apply (qprod_map_deps _ (fun n a => ievw ev n a)). intros n Hn. apply filter_In in Hn as [Hn N].
    eapply deps_incl; [|apply ievw_deps]. intros v [<-|[]]. apply filter_In. split; [apply in_map, Hn|]. rewrite N. reflexivity.
Qed.

Lemma Far_deps e : deps (names (fun v => negb (inA v))) (Far e).
Proof.
  unfold Far. apply deps_mult.
  - apply (qprod_map_deps _ (fun n a => feval (from_node n) a)). intros n Hn. apply filter_In in Hn as [Hn N]. apply negb_true_iff in N.
    eapply deps_incl; [|apply feval_deps]. intros v Hv. apply filter_In. split; [exact (from_node_scope b WB n v Hn Hv)|].
    apply negb_true_iff. exact (far_family n v N Hv).
  - apply (qprod_map_deps _ (fun n a => ievw e n a)). intros n Hn. apply filter_In in Hn as [Hn N].
    eapply deps_incl; [|apply ievw_deps]. intros v [<-|[]]. apply filter_In. split; [apply in_map, Hn|].
    apply andb_true_iff in N. apply N.
Qed.

Lemma over_deps P H : deps (names P) H -> deps (names (fun v => P v && negb (pinb v))) (fun a => H (over a)).
Proof.
  intros D x y E. apply D. intros v Hv. apply filter_In in Hv as [Hv Pv]. unfold over. destruct (pinb v) eqn:X.
  - apply mem_In in Hv. rewrite Hv. reflexivity.
  - cbn [andb]. apply E. apply filter_In. split; [exact Hv|]. rewrite Pv, X. reflexivity.
Qed.

Lemma filter_in3 vs : (forall v, In v vs -> inA v = true \/ pinb v = true) ->
  Permutation (others b vs) ((filter pinb (others b vs) ++ filter inA (others b vs)) ++ names rest).
Proof.
  intros V. unfold others. induction (bnames b) as [|v l IH]; [constructor|]. cbn [filter].
  destruct (mem v vs) eqn:M; cbn [negb].
  - assert (R : rest v = false). { apply mem_In, V in M as [M|M]; unfold rest; fold (inA v); rewrite M; [apply andb_false_r|reflexivity]. }
    rewrite R. exact IH.
  - cbn [filter]. unfold rest at 1. fold (inA v). destruct (pinb v) eqn:P, (inA v) eqn:N; cbn [negb andb].
    + rewrite (inA_not_pin v N) in P. discriminate P.
    + cbn [app]. constructor. exact IH.
    + rewrite <- app_assoc. cbn [app]. rewrite <- app_assoc in IH. apply Permutation_cons_app, IH.
    + apply Permutation_cons_app, IH.
Qed.

(** The part of the mass that depends on the query, and the part that depends on
    the evidence. *)
Definition share (q : dict string) (vs : list string) : Qc :=
  sum_over card (filter pinb (others b vs) ++ filter inA (others b vs)) (fun a => Pin a * Near (over a))%Qc (asg_q b q).
Definition tail (e : evidence) : Qc := sum_over card (names rest) (fun a => Far e (over a)) (fun _ => 0).

Lemma mass_split e q vs : e = ev \/ e = ev' -> ev_ok b e -> is_inst b vs q -> NoDup vs -> incl vs (bnames b) ->
  (forall v, In v vs -> inA v = true \/ pinb v = true) ->
  mass b e q = (share q vs * tail e)%Qc.
Proof.
  intros He EV HI ND I V. rewrite (mass_sum b WB e q vs EV HI ND I).
  rewrite (sum_over_perm card _ _ _ (iweight_ext b WB e) (filter_in3 vs V)), sum_over_app.
  assert (DN : deps (bnames b) Near) by (eapply deps_incl; [|apply Near_deps]; intros v Hv; apply filter_In in Hv; tauto).
  assert (DF : deps (bnames b) (Far e)) by (eapply deps_incl; [|apply Far_deps]; intros v Hv; apply filter_In in Hv; tauto).
  assert (ON := over_deps _ _ Near_deps). assert (OF := over_deps _ _ (Far_deps e)). cbn beta in ON, OF.
  set (L := filter pinb (others b vs) ++ filter inA (others b vs)).
  transitivity (sum_over card L (fun a => (Pin a * Near (over a)) * tail e)%Qc (asg_q b q)).
  - apply sum_over_ext. intros c.
    transitivity (sum_over card (names rest) (fun a => (Pin a * Near (over a)) * Far e (over a))%Qc c).
    + apply sum_over_ext. intros a. rewrite (iweight_split e a He). rewrite (pin_over a (fun a => (Near a * Far e a)%Qc)).
      * ring. * apply deps_mult; assumption.
    + rewrite (sum_over_mult_l card (names rest) (names (fun v => inA v || pinb v)) (fun a => Pin a * Near (over a))%Qc (fun a => Far e (over a)) c).
      * f_equal. unfold tail. apply (sum_over_deps card _ _ _ OF). intros v Hv Nv. exfalso. apply Nv.
        apply filter_In in Hv as [Hv P]. apply filter_In. split; [exact Hv|]. unfold rest. rewrite andb_comm. exact P.
      * apply deps_mult.
        -- eapply deps_incl; [|apply Pin_deps]. intros v Hv. apply filter_In in Hv as [Hv P]. apply filter_In. split; [exact Hv|]. rewrite P. apply orb_true_r.
        -- eapply deps_incl; [|exact ON]. intros v Hv. apply filter_In in Hv as [Hv P]. apply filter_In. split; [exact Hv|]. apply andb_true_iff in P. apply P.
      * intros v H1 H2. apply filter_In in H1 as [_ H1]. apply filter_In in H2 as [_ H2]. unfold rest in H2. fold (inA v) in H2.
        apply andb_true_iff in H2 as [X1 X2]. apply negb_true_iff in X1, X2. rewrite X1, X2 in H1. discriminate H1.
  - unfold share. fold L. apply (sum_over_mult_r card L [] (fun _ => tail e) (fun a => Pin a * Near (over a))%Qc).
    + intros ? ? _; reflexivity. + intros v [].
Qed.

Lemma closed_same q vs : ev_ok b ev -> ev_ok b ev' -> is_inst b vs q -> NoDup vs -> incl vs (bnames b) ->
  (forall v, In v vs -> inA v = true \/ pinb v = true) ->
  mass b ev [] <> 0%Qc -> mass b ev' [] <> 0%Qc -> posterior b ev q = posterior b ev' q.
Proof.
  intros E1 E2 HI ND I V M1 M2.
  assert (N : forall v : string, In v [] -> inA v = true \/ pinb v = true) by (intros v []).
  assert (N' : incl [] (bnames b)) by (intros v []).
  unfold posterior. apply qeqb_false in M1 as Q1. apply qeqb_false in M2 as Q2. rewrite Q1, Q2. clear Q1 Q2.
  rewrite (mass_split ev [] [] (or_introl eq_refl) E1 (is_inst_nil b) (NoDup_nil _) N' N) in *.
  rewrite (mass_split ev' [] [] (or_intror eq_refl) E2 (is_inst_nil b) (NoDup_nil _) N' N) in *.
  rewrite (mass_split ev q vs (or_introl eq_refl) E1 HI ND I V), (mass_split ev' q vs (or_intror eq_refl) E2 HI ND I V).
  assert (S1 : share [] [] <> 0%Qc) by (intros E; apply M1; rewrite E; ring).
  assert (T1 : tail ev <> 0%Qc) by (intros E; apply M1; rewrite E; ring).
  assert (T2 : tail ev' <> 0%Qc) by (intros E; apply M2; rewrite E; ring).
  field. auto.
Qed.
End Closed.

Theorem separated q vs : ev_ok b ev -> ev_ok b ev' -> is_inst b vs q -> NoDup vs -> incl vs (bnames b) ->
  same_near b ev ev' vs -> mass b ev [] <> 0%Qc -> mass b ev' [] <> 0%Qc -> posterior b ev q = posterior b ev' q.
Proof.
  intros E1 E2 HI ND I SN M1 M2.
  destruct (saturate (fun v => exists u, In u vs /\ trail b ev ev' u v)) with (k := length (bnames b)) (A := filter (fun v => negb (pinb v)) vs)
    as (A & IA & G & C).
  - intros v w (u & Hu & T) R NP. exists u. split; [exact Hu|]. eapply trail_step; eassumption.
  - clear. induction (bnames b) as [|v l IH]; cbn; [lia|]. destruct (negb _); cbn; lia.
  - intros v Hv. apply filter_In in Hv as [Hv N]. apply negb_true_iff, pinb_no in N. exists v. split; [exact Hv|]. now constructor.
  - apply (closed_same A C) with (vs := vs); try assumption.
    + intros v Hv. apply G in Hv as (u & _ & T). inversion T; assumption.
    + intros v Hv. apply G in Hv as (u & Hu & T). exact (SN u v Hu T).
    + intros v Hv. destruct (pinb v) eqn:P; [auto|]. left. apply mem_In, IA, filter_In. rewrite P. auto.
Qed.
End Sep.
