(** Relevance and separation for what the inference methods return; checks for
    concrete networks. *)
From Verif Require Import Base BaseFacts NDArray NDArrayFacts SumCalc Factor FactorFacts Exact Spec SpecFacts OrderSpec MCSpec HuginPure DecNorm
  FactorSpec VEProof VEProof2 SepSpec SepRelevant SepTrail SepBall SepMarkov.

Lemma reports_same b f Q P P' : reports b f Q P -> (forall q, is_inst b Q q -> P q = P' q) -> reports b f Q P'.
Proof.
  intros (A1 & A2 & A3 & A4 & A5 & A6 & A7) H. repeat (split; [assumption|]). intros q Hq. rewrite (A7 q Hq). apply H, Hq.
Qed.

Lemma reports_at b f Q P q : reports b f Q P -> is_inst b Q q -> potential_at f q = P q.
Proof. intros R. apply R. Qed.

(** Reports about the smaller network are reports about the network. *)
Lemma reports_restrict b S f Q P : wf_bn b -> ancestral b S -> incl Q (bnames b) -> incl Q S ->
  reports (restrict b S) f Q P -> reports b f Q P.
Proof.
  intros WB AN I IS (A1 & A2 & A3 & A4 & A5 & A6 & A7).
  assert (J : incl Q (bnames (restrict b S))) by (intros v Hv; apply r_name; split; [apply I, Hv|apply IS, Hv]).
  assert (D : forall v, In v (vorder f) -> values_of (restrict b S) v = values_of b v) by (intros v Hv; apply r_dom; auto; apply J, A2, Hv).
  split; [exact A1|]. split; [exact A2|]. split; [intros v Hv; rewrite (A3 v Hv), (D v Hv); reflexivity|]. split; [exact A4|].
  split; [rewrite A5; apply map_ext_in; intros v Hv; rewrite (D v Hv); reflexivity|]. split; [exact A6|].
  intros q Hq. apply A7. apply (r_inst b WB S AN Q q J), Hq.
Qed.

Section Restrict.
Variable b : bn.
Hypothesis WB : wf_bn b.
Variables (S Q : list string) (ev : evidence) (order : list string).
Hypothesis (AN : ancestral b S) (TO : topological b order) (ST : stochastic_outside b S) (EV : ev_ok b ev) (WS : within_set b ev S).
Hypothesis (ND : NoDup Q) (I : incl Q (bnames b)) (IS : incl Q S).

Lemma Q_inside : incl Q (bnames (restrict b S)).
Proof. intros v Hv. apply r_name. split; [apply I, Hv|apply IS, Hv]. Qed.

Lemma report_full f : reports (restrict b S) f Q (posterior (restrict b S) ev) -> reports b f Q (posterior b ev).
Proof.
  intros R. apply (reports_restrict b S f Q _ WB AN I IS) in R. apply (reports_same _ _ _ _ _ R). intros q Hq. symmetry.
  apply (posterior_restrict b WB S AN order TO ST ev q Q EV WS Hq ND Q_inside).
Qed.

Lemma keys_inside : incl (dkeys ev) (bnames b) -> incl (dkeys ev) (bnames (restrict b S)).
Proof. intros K v Hv. apply r_name. split; [apply K, Hv|apply WS; [exact Hv|apply K, Hv]]. Qed.
End Restrict.

Lemma r_graph b S : wf_graph b -> wf_graph (restrict b S).
Proof.
  intros [G1 G2 G3]. split.
  - rewrite r_names. cbn [restrict border]. apply perm_filter, G1.
  - rewrite r_names. apply NoDup_filter, G2.
  - intros u v H. cbn [restrict bedges] in H. apply filter_In in H as [H M]. cbn [fst snd] in M. apply andb_true_iff in M as [M1 M2].
    apply mem_In in M1, M2. destruct (G3 u v H) as (A & B & C). rewrite !r_name. tauto.
Qed.

(** ** Checks *)
Definition ancestralb (b : bn) (S : list string) : bool :=
  forallb (fun n => negb (mem (dn_name n) S) || forallb (fun p => mem p S) (map fst (dn_parents n))) (bnodes b).

Lemma ancestralb_ok b S : ancestralb b S = true -> ancestral b S.
Proof.
  unfold ancestralb. rewrite forallb_forall. intros H n p Hn Sn Hp. specialize (H n Hn). apply mem_In in Sn. rewrite Sn in H. cbn [negb orb] in H.
  rewrite forallb_forall in H. apply mem_In, H, Hp.
Qed.

Definition within_setb (b : bn) (ev : evidence) (S : list string) : bool := forallb (fun v => negb (mem v (bnames b)) || mem v S) (dkeys ev).

Lemma within_setb_ok b ev S : within_setb b ev S = true -> within_set b ev S.
Proof.
  unfold within_setb. rewrite forallb_forall. intros H v Hv Bv. specialize (H v Hv). apply mem_In in Bv. rewrite Bv in H. apply mem_In, H.
Qed.

(** All children of listed variables are listed. *)
Definition child_closed (b : bn) (D : list string) : bool :=
  forallb (fun n => negb (existsb (fun p => mem p D) (map fst (dn_parents n))) || mem (dn_name n) D) (bnodes b).

Lemma child_closed_ok b D : child_closed b D = true -> forall u v, above b u v -> In u D -> In v D.
Proof.
  unfold child_closed. rewrite forallb_forall. intros H u v A. induction A as [|u w v (n & Hn & <- & Hp) A IH]; intros Hu; [exact Hu|].
  apply IH. specialize (H n Hn). assert (E : existsb (fun p => mem p D) (map fst (dn_parents n)) = true) by (apply existsb_exists; exists u; split; [exact Hp|apply mem_In, Hu]).
  rewrite E in H. apply mem_In, H.
Qed.

(** [O]: variables that are opened at most; [L]: where the ball goes at most. *)
Definition pinnedb (ev ev' : evidence) (v : string) : bool :=
  match dget v ev, dget v ev' with Some (Hard x), Some (Hard y) => String.eqb x y | _, _ => false end.
Definition mem_at (d : bool) (v : string) (L : list (bool * string)) : bool := existsb (fun p => Bool.eqb d (fst p) && String.eqb v (snd p)) L.
Definition parents_in (b : bn) (v : string) : list string := flat_map (fun n => if String.eqb (dn_name n) v then map fst (dn_parents n) else []) (bnodes b).
Definition children_in (b : bn) (v : string) : list string := map dn_name (filter (fun n => mem v (map fst (dn_parents n))) (bnodes b)).
Definition ball_boxb (b : bn) (ev ev' : evidence) (Q : list string) (O : list string) (L : list (bool * string)) : bool :=
  forallb (fun v => mem v O) (dkeys ev ++ dkeys ev') && ancestralb b O && forallb (fun q => mem_at true q L) Q &&
  forallb (fun p => let v := snd p in
     (pinnedb ev ev' v || ((negb (fst p) || forallb (fun u => mem_at true u L) (parents_in b v)) && forallb (fun c => mem_at false c L) (children_in b v)))
     && (fst p || negb (mem v O) || forallb (fun u => mem_at true u L) (parents_in b v))) L.

Lemma mem_at_In d v L : mem_at d v L = true <-> In (d, v) L.
Proof.
  unfold mem_at. rewrite existsb_exists. split.
  - intros ((e & u) & H & E). cbn in E. apply andb_true_iff in E as [E1 E2]. apply Bool.eqb_prop in E1. apply String.eqb_eq in E2. subst. exact H.
  - intros H. exists (d, v). split; [exact H|]. cbn. rewrite Bool.eqb_reflx, String.eqb_refl. reflexivity.
Qed.

Lemma parents_in_ok b p v : parent b p v -> In p (parents_in b v).
Proof. intros (n & Hn & E & H). unfold parents_in. apply in_flat_map. exists n. split; [exact Hn|]. rewrite E, String.eqb_refl. exact H. Qed.

Lemma children_in_ok b p v : parent b p v -> In v (children_in b p).
Proof. intros (n & Hn & E & H). unfold children_in. apply in_map_iff. exists n. split; [exact E|]. apply filter_In. split; [exact Hn|]. apply mem_In, H. Qed.

Lemma ball_boxb_ok b ev ev' Q O L : ball_boxb b ev ev' Q O L = true -> forall d v, ball b ev ev' Q d v -> In (d, v) L.
Proof.
  unfold ball_boxb. rewrite !andb_true_iff, !forallb_forall. intros (((H1 & H2) & H3) & H4). apply ancestralb_ok in H2.
  assert (OP : forall v, opened b ev ev' v -> In v O).
  { intros v (d & A & D). apply H1, mem_In in D. clear H1 H3 H4. induction A as [|u w x P A IH]; [exact D|]. destruct P as (n & Hn & E & H).
    apply (H2 n u Hn); [rewrite E; apply IH, D|exact H]. }
  assert (NP : forall v, ~ pinned ev ev' v -> pinnedb ev ev' v = false).
  { intros v N. unfold pinnedb. destruct (dget v ev) as [[x|q]|] eqn:E1; try reflexivity. destruct (dget v ev') as [[y|q]|] eqn:E2; try reflexivity.
    apply String.eqb_neq. intros <-. apply N. exists x. auto. }
  intros d v B. induction B as [q Hq|v p B IH N P|d v c B IH N P|v p B IH OV P].
  - apply mem_at_In, H3, Hq.
  - specialize (H4 _ IH). cbn [fst snd] in H4. rewrite (NP v N) in H4. cbn [orb negb] in H4. apply andb_true_iff in H4 as [H4 _]. apply andb_true_iff in H4 as [H4 _].
    rewrite forallb_forall in H4. apply mem_at_In, H4, parents_in_ok, P.
  - specialize (H4 _ IH). cbn [fst snd] in H4. rewrite (NP v N) in H4. cbn [orb] in H4. apply andb_true_iff in H4 as [H4 _]. apply andb_true_iff in H4 as [_ H4].
    rewrite forallb_forall in H4. apply mem_at_In, H4, children_in_ok, P.
  - specialize (H4 _ IH). cbn [fst snd] in H4. apply andb_true_iff in H4 as [_ H4]. cbn [orb] in H4. assert (M := OP v OV). apply mem_In in M. rewrite M in H4. cbn [negb orb] in H4.
    rewrite forallb_forall in H4. apply mem_at_In, H4, parents_in_ok, P.
Qed.

Lemma ball_same_ok b ev ev' Q O L : ball_boxb b ev ev' Q O L = true -> (forall d v, In (d, v) L -> dget v ev = dget v ev') -> ball_same b ev ev' Q.
Proof. intros B H d v X. exact (H d v (ball_boxb_ok b ev ev' Q O L B d v X)). Qed.
