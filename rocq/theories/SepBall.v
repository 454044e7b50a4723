(** The ball reaches everything that trails among the relevant variables reach. *)
From Verif Require Import Base BaseFacts NDArray NDArrayFacts SumCalc Factor FactorFacts Exact Spec SpecFacts MCSpec DecNorm SepSpec SepRelevant SepTrail.

(** Closing a set under a relation. *)
Section Close.
Variable names : list string.
Variable step : string -> string -> bool.
Variable good : string -> Prop.
Hypothesis G : forall v w, good v -> In w names -> step v w = true -> good w.

Lemma closing k : forall A, length (filter (fun v => negb (mem v A)) names) <= k -> (forall v, In v A -> good v) ->
  exists A', incl A A' /\ (forall v, In v A' -> good v) /\
    (forall v w, In v A' -> In w names -> step v w = true -> In w A').
Proof.
  induction k as [|k IH]; intros A L GA.
  - exists A. split; [apply incl_refl|]. split; [exact GA|]. intros v w _ R _.
    destruct (In_dec_s w A) as [X|X]; [exact X|]. exfalso.
    assert (H : In w (filter (fun v => negb (mem v A)) names)) by (apply filter_In; split; [exact R|]; apply negb_true_iff, mem_nIn, X).
    destruct (filter (fun v => negb (mem v A)) names); [exact H|cbn in L; lia].
  - destruct (find (fun w => negb (mem w A) && existsb (fun v => step v w) A) names) as [w|] eqn:F.
    + apply find_some in F as [Hw H]. rewrite andb_true_iff, negb_true_iff in H. destruct H as (H1 & H3).
      apply existsb_exists in H3 as (v & Hv & R). apply mem_nIn in H1.
      destruct (IH (w :: A)) as (A' & I & GA' & C).
      * assert (X : length (filter (fun v => negb (mem v (w :: A))) names) < length (filter (fun v => negb (mem v A)) names)).
        { clear - Hw H1. induction names as [|u l IHl]; [destruct Hw|]. cbn [filter].
          assert (LE : length (filter (fun v => negb (mem v (w :: A))) l) <= length (filter (fun v => negb (mem v A)) l)).
          { clear. induction l as [|u l IHl]; [apply le_n|]. cbn [filter].
            assert (M : mem u A = true -> mem u (w :: A) = true) by (rewrite !mem_In; intros; right; assumption).
            destruct (mem u A) eqn:E; [rewrite (M eq_refl); cbn [negb]; exact IHl|].
            destruct (mem u (w :: A)); cbn [negb length]; lia. }
          destruct Hw as [->|Hw].
          - assert (E1 : mem w (w :: A) = true) by (apply mem_In; left; reflexivity). apply mem_nIn in H1. rewrite E1, H1. cbn [negb length]. lia.
          - specialize (IHl Hw). destruct (mem u A) eqn:E.
            + assert (E1 : mem u (w :: A) = true) by (apply mem_In; right; apply mem_In, E). rewrite E1. cbn [negb]. exact IHl.
            + destruct (mem u (w :: A)); cbn [negb length]; lia. }
        lia.
      * intros u [<-|Hu]; [exact (G v w (GA v Hv) Hw R)|apply GA, Hu].
      * exists A'. split; [intros u Hu; apply I; right; exact Hu|]. split; assumption.
    + exists A. split; [apply incl_refl|]. split; [exact GA|]. intros v w Hv Hw R.
      destruct (In_dec_s w A) as [X|X]; [exact X|]. exfalso.
      assert (N := find_none _ _ F w Hw). cbn in N. apply mem_nIn in X. rewrite X in N. cbn in N.
      assert (Y : existsb (fun v => step v w) A = true) by (apply existsb_exists; exists v; auto). congruence.
Qed.

Lemma close A : (forall v, In v A -> good v) -> exists A', incl A A' /\ (forall v, In v A' -> good v) /\
    (forall v w, In v A' -> In w names -> step v w = true -> In w A').
Proof. apply (closing (length (filter (fun v => negb (mem v A)) names))). apply le_n. Qed.
End Close.

Section Ball.
Variable b : bn.
Hypothesis WB : wf_bn b.
Variable ev ev' : evidence.
Variable Q : list string.
Notation K := (dkeys ev ++ dkeys ev').

Definition parentb (p v : string) : bool := existsb (fun n => String.eqb (dn_name n) v && mem p (map fst (dn_parents n))) (bnodes b).

Lemma parentb_ok p v : parentb p v = true <-> parent b p v.
Proof.
  unfold parentb, parent. rewrite existsb_exists. split.
  - intros (n & Hn & H). apply andb_true_iff in H as [A B]. exists n. rewrite String.eqb_eq in A. rewrite mem_In in B. auto.
  - intros (n & Hn & A & B). exists n. split; [exact Hn|]. apply andb_true_iff. rewrite String.eqb_eq, mem_In. auto.
Qed.

Lemma parent_name p v : parent b p v -> In p (bnames b) /\ In v (bnames b).
Proof.
  intros (n & Hn & <- & H). split; [|apply in_map, Hn]. apply (from_node_scope b WB n p Hn). right; exact H.
Qed.

Lemma above_trans u v w : above b u v -> above b v w -> above b u w.
Proof. induction 1 as [|x y z P _ IH]; intros H; [exact H|]. econstructor; eauto. Qed.

(** The ancestors of query and evidence. *)
Lemma relevant : exists S, ancestral b S /\ incl (Q ++ K) S /\ forall v, In v S -> exists d, above b v d /\ In d (Q ++ K).
Proof.
  destruct (close (bnames b) (fun v p => parentb p v) (fun v => exists d, above b v d /\ In d (Q ++ K))) with (A := Q ++ K) as (S & I & G & C).
  - intros v w (d & A & D) _ P. apply parentb_ok in P. exists d. split; [econstructor; eassumption|exact D].
  - intros v Hv. exists v. split; [constructor|exact Hv].
  - exists S. split; [|split; assumption]. intros n p Hn Sn Hp. assert (P : parent b p (dn_name n)) by (exists n; auto).
    apply (C _ p Sn); [apply (parent_name _ _ P)|]. apply parentb_ok, P.
Qed.

(** Up a directed path on which nothing is observed. *)
Lemma climb v q : above b v q -> (forall d, above b v d -> ~ In d K) -> ball b ev ev' Q true q -> ball b ev ev' Q true v.
Proof.
  induction 1 as [|u w q P A IH]; intros N B; [exact B|].
  assert (Nw : forall d, above b w d -> ~ In d K) by (intros d X; apply N; econstructor; eassumption).
  apply (ball_up b ev ev' Q w u (IH Nw B)); [|exact P]. intros (x & E & _). apply (Nw w); [constructor|].
  apply in_or_app. left. apply dget_Some_key in E. exact E.
Qed.

Lemma opened_dec v : opened b ev ev' v \/ ~ opened b ev ev' v.
Proof.
  destruct (close (bnames b) (fun v c => parentb v c) (fun w => above b v w)) with (A := [v]) as (D & I & G & C).
  - intros u w A _ P. apply parentb_ok in P. apply (above_trans _ _ _ A). econstructor; [exact P|constructor].
  - intros w [<-|[]]. constructor.
  - assert (F : forall u w, above b u w -> In u D -> In w D).
    { induction 1 as [|u w x P A IH]; intros Hu; [exact Hu|]. apply IH. apply (C u w Hu); [apply (parent_name _ _ P)|]. apply parentb_ok, P. }
    destruct (existsb (fun d => mem d K) D) eqn:E.
    + left. apply existsb_exists in E as (d & Hd & M). apply mem_In in M. exists d. split; [apply G, Hd|exact M].
    + right. intros (d & A & Hd). assert (X : existsb (fun d => mem d K) D = true); [|congruence]. apply existsb_exists. exists d.
      split; [apply (F v d A), I; left; reflexivity|apply mem_In, Hd].
Qed.

(** Each variable of the relevant part that is reached from below or above can be
    reached from below, or its parents can. *)
Lemma reach_up S v : (forall v, In v S -> exists d, above b v d /\ In d (Q ++ K)) -> In v S ->
  ball b ev ev' Q false v -> forall p, parent b p v -> ball b ev ev' Q true p.
Proof.
  intros G Sv B p P. destruct (opened_dec v) as [O|N]; [eapply ball_bounce; eassumption|].
  assert (N' : forall d, above b v d -> ~ In d K) by (intros d A X; apply N; exists d; auto).
  destruct (G v Sv) as (d & A & D). apply in_app_or in D as [D|D]; [|exfalso; exact (N' d A D)].
  assert (T : ball b ev ev' Q true v) by (apply (climb v d A N'), ball_start, D).
  apply (ball_up b ev ev' Q v p T); [|exact P]. intros (x & E & _). apply (N' v); [constructor|]. apply in_or_app. left.
  apply dget_Some_key in E. exact E.
Qed.

Lemma trail_ball S u v : (forall v, In v S -> exists d, above b v d /\ In d (Q ++ K)) -> ancestral b S ->
  In u Q -> trail (restrict b S) ev ev' u v -> exists d, ball b ev ev' Q d v.
Proof.
  intros G AN Hu T. induction T as [v N|u v w T IH R N].
  - exists true. constructor. exact Hu.
  - destruct (IH Hu) as (d & B). clear IH. assert (Nv : ~ pinned ev ev' v) by (inversion T; assumption).
    destruct R as (n & Hn & Fv & Fw). apply (r_node b S) in Hn as [Hn Sn].
    assert (PAR : forall p, In p (map fst (dn_parents n)) -> parent b p (dn_name n)) by (intros p Hp; exists n; auto).
    assert (UP : ball b ev ev' Q false (dn_name n) -> forall p, parent b p (dn_name n) -> ball b ev ev' Q true p) by (apply (reach_up S); assumption).
    destruct Fv as [<-|Fv], Fw as [<-|Fw].
    + exists d. exact B.
    + exists true. destruct d; [eapply ball_up; [exact B|exact Nv|apply PAR, Fw]|]. apply UP; [exact B|apply PAR, Fw].
    + exists false. eapply ball_down; [exact B|exact Nv|apply PAR, Fv].
    + exists true. apply UP; [|apply PAR, Fw]. eapply ball_down; [exact B|exact Nv|apply PAR, Fv].
Qed.

Theorem ball_separates order q : topological b order -> stochastic_bn b -> ev_ok b ev -> ev_ok b ev' -> NoDup Q -> incl Q (bnames b) ->
  is_inst b Q q -> ball_same b ev ev' Q -> mass b ev [] <> 0%Qc -> mass b ev' [] <> 0%Qc -> posterior b ev q = posterior b ev' q.
Proof.
  intros TO ST E1 E2 ND I HI SB M1 M2. destruct relevant as (S & AN & IS & G).
  assert (SO : stochastic_outside b S) by (intros n s Hn _; apply ST, Hn).
  assert (W1 : within_set b ev S) by (intros v Hv _; apply IS, in_or_app; right; apply in_or_app; left; exact Hv).
  assert (W2 : within_set b ev' S) by (intros v Hv _; apply IS, in_or_app; right; apply in_or_app; right; exact Hv).
  assert (IQ : incl Q (bnames (restrict b S))).
  { intros v Hv. apply r_name. split; [apply I, Hv|]. apply IS, in_or_app. left; exact Hv. }
  rewrite (posterior_restrict b WB S AN order TO SO ev q Q E1 W1 HI ND IQ), (posterior_restrict b WB S AN order TO SO ev' q Q E2 W2 HI ND IQ).
  rewrite (mass_restrict b WB S AN order TO SO ev [] [] E1 W1 (is_inst_nil b)) in M1; [|constructor|intros v []].
  rewrite (mass_restrict b WB S AN order TO SO ev' [] [] E2 W2 (is_inst_nil b)) in M2; [|constructor|intros v []].
  apply (separated (restrict b S) (r_wf b WB S AN) ev ev' q Q); try assumption.
  - apply (r_ev b WB S AN), E1. - apply (r_ev b WB S AN), E2. - apply (r_inst b WB S AN Q q IQ), HI.
  - intros u v Hu T. destruct (trail_ball S u v G AN Hu T) as (d & B). exact (SB d v B).
Qed.
End Ball.
