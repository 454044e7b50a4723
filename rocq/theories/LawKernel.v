(** The distribution of one update of one variable, and what it leaves invariant. *)
From Coq Require Import Field.
From Verif Require Import Base NDArray Factor Exact Spec OrderSpec BaseFacts FactorProofs SpecFacts Sampling MCSpec MCFacts MCProof MCTop MCChain
  LawSpec LawCount.

(** ** Resampling one variable *)
Lemma states_keys vars s : In s (states vars) -> map fst s = map fst vars.
Proof.
  revert s. induction vars as [|[v vals] vars IH]; intros s H; cbn [states] in H; [destruct H as [<-|[]]; reflexivity|].
  apply in_flat_map in H as (x & X & H). apply in_map_iff in H as (s' & <- & H). cbn [map fst]. now rewrite (IH s' H).
Qed.

Lemma states_resample vars v vals : NoDup (map fst vars) -> In (v, vals) vars -> forall F : dict string -> Qc,
  qsum (map (fun s => qsum (map (fun x => F (dset v x s)) vals)) (states vars)) = (qnat (length vals) * qsum (map F (states vars)))%Qc.
Proof.
  induction vars as [|[u us] vars IH]; intros ND H F; [destruct H|]. cbn [map fst] in ND. inversion ND as [|? ? A B]; subst.
  cbn [states]. rewrite !qsum_flat_map. destruct H as [H|H].
  - inversion H; subst u us. transitivity (qsum (map (fun _ : string => qsum (map (fun x => qsum (map (fun s => F ((v, x) :: s)) (states vars))) vals)) vals)).
    + apply qsum_map_ext. intros y Y. rewrite map_map. rewrite qsum_swap. apply qsum_map_ext. intros s S.
      apply qsum_map_ext. intros x X. cbn [dset]. now rewrite String.eqb_refl.
    + rewrite qsum_const. f_equal. apply qsum_map_ext. intros x X. now rewrite map_map.
  - rewrite <- qsum_mult_l. apply qsum_map_ext. intros y Y. rewrite !map_map.
    etransitivity; [|exact (IH B H (fun s => F ((u, y) :: s)))]. apply qsum_map_ext. intros s S. apply qsum_map_ext. intros x X.
    cbn [dset]. destruct (String.eqb_spec v u) as [->|N]; [|reflexivity]. exfalso. apply A. change u with (fst (u, vals)). now apply in_map.
Qed.

Lemma agrees_dset ev v x s : ~ In v (dkeys ev) -> agrees ev (dset v x s) = agrees ev s.
Proof.
  intros N. unfold agrees. induction ev as [|[u e] ev IH]; [reflexivity|]. cbn [forallb fst snd].
  rewrite look_dset_neq by (intros ->; apply N; now left). f_equal. apply IH. intros H. apply N. now right.
Qed.

Section Net.
Variable b : bn.
Hypothesis SN : sampled_net b.
Variable ev : dict string.
Let WB := sn_bn b SN.

Lemma bvars_names : map fst (bvars b) = bnames b.
Proof. unfold bvars, bnames. rewrite map_map. reflexivity. Qed.

Lemma bvars_values v : In v (bnames b) -> In (v, values_of b v) (bvars b).
Proof.
  intros H. apply in_map_iff in H as (n & <- & H). rewrite (values_of_node b WB n H). unfold bvars.
  exact (in_map (fun n => (dn_name n, dn_values n)) _ _ H).
Qed.

Lemma worlds_resample v (F : dict string -> Qc) : In v (free_vars b ev) ->
  qsum (map (fun s => qsum (map (fun x => F (dset v x s)) (values_of b v))) (worlds b ev)) =
  (qnat (length (values_of b v)) * qsum (map F (worlds b ev)))%Qc.
Proof.
  intros H. apply (free_spec b SN) in H as [H N]. unfold worlds. rewrite !qsum_filter.
  rewrite <- (states_resample (bvars b) v (values_of b v)); [| |now apply bvars_values].
  - apply qsum_map_ext. intros s S. destruct (agrees ev s) eqn:A.
    + apply qsum_map_ext. intros x X. now rewrite agrees_dset, A.
    + symmetry. apply qsum_zero. intros x X. now rewrite agrees_dset, A.
  - rewrite bvars_names. apply (wb_names b WB).
Qed.

Lemma state_complete vars s : NoDup (map fst vars) -> In s (states vars) -> forall v l, In (v, l) vars -> exists x, dget v s = Some x /\ In x l.
Proof.
  revert s. induction vars as [|[u us] vars IH]; intros s ND H v l Hv; [destruct Hv|]. cbn [states] in H. cbn [map fst] in ND.
  inversion ND as [|? ? A B]; subst. apply in_flat_map in H as (x & X & H). apply in_map_iff in H as (s' & <- & H). cbn [dget].
  destruct Hv as [E|Hv].
  - inversion E; subst. rewrite String.eqb_refl. now exists x.
  - destruct (String.eqb_spec v u) as [->|N]; [|now apply IH]. exfalso. apply A. change u with (fst (u, l)). now apply in_map.
Qed.

Lemma worlds_complete s : In s (worlds b ev) -> complete b s.
Proof.
  intros H. apply filter_In in H as [H _]. intros v Hv. apply (state_complete (bvars b)); auto.
  - rewrite bvars_names. apply (wb_names b WB).
  - now apply bvars_values.
Qed.

Lemma worlds_keep s : incl (dkeys ev) (bnames b) -> In s (worlds b ev) -> keeps ev s.
Proof.
  intros I H v x E. pose proof (worlds_complete s H) as C. apply filter_In in H as [_ H].
  destruct (C v) as (y & Y & _); [apply I; now apply dget_Some_key in E|]. rewrite Y. f_equal.
  apply dget_In in E. unfold agrees in H. rewrite forallb_forall in H. apply H in E. cbn in E. apply String.eqb_eq in E.
  now rewrite <- E, (look_dget _ _ _ Y).
Qed.

(** ** Programs as functions of the draws they use *)
Variable N : nat.
Hypothesis N0 : 0 < N.
Notation NN := (qnat N * qnat N)%Qc.

Definition prog := dict string -> list (Qc * nat) -> res (dict string).
Definition val (h : dict string -> Qc) (r : res (dict string)) : Qc := match r with Ok s => h s | Err _ => 0%Qc end.

(** The states' weights are left as they are. *)
Definition invariant (F : prog) (c : nat) : Prop := forall h : dict string -> Qc,
  qsum (map (fun x => joint b x * qsum (map (fun l => val h (F x l)) (streams N c)))%Qc (worlds b ev)) =
  (powc NN c * qsum (map (fun x => joint b x * h x)%Qc (worlds b ev)))%Qc.

Definition pause : prog := fun x _ => Ok x.
Definition follow (c : nat) (F G : prog) : prog := fun x l => let* s := F x (firstn c l) in G s (skipn c l).

Lemma pause_invariant : invariant pause 0.
Proof.
  intros h. cbn [streams map powc]. rewrite Qcmult_1_l. apply qsum_map_ext. intros x _. unfold pause. cbn [val qsum]. ring.
Qed.

Lemma follow_invariant F c G d : invariant F c -> invariant G d -> invariant (follow c F G) (c + d).
Proof.
  intros IF IG h. set (h' := fun s => qsum (map (fun l => val h (G s l)) (streams N d))).
  transitivity (qsum (map (fun x => joint b x * qsum (map (fun l => val h' (F x l)) (streams N c)))%Qc (worlds b ev))).
  - apply qsum_map_ext. intros x _. f_equal. rewrite streams_split. apply qsum_map_ext. intros l1 L1. unfold follow, val at 2.
    pose proof (proj1 (Forall_forall _ _) (streams_length N c) l1 L1) as E.
    destruct (F x l1) as [s|e] eqn:FE.
    + unfold h'. apply qsum_map_ext. intros l2 _. now rewrite <- E, firstn_app, Nat.sub_diag, firstn_all, skipn_app, skipn_all, Nat.sub_diag, app_nil_r, FE.
    + apply qsum_zero. intros l2 _. now rewrite <- E, firstn_app, Nat.sub_diag, firstn_all, app_nil_r, FE.
  - rewrite IF, powc_add, <- Qcmult_assoc, <- IG. reflexivity.
Qed.

(** One element chosen at random, then its program. *)
Definition pickp (vars : list string) (F : string -> prog) : prog := fun x l =>
  match l with
  | [] => Err IndexError
  | d :: l' => F (nth (Nat.modulo (snd d) (length vars)) vars "") x l'
  end.

Lemma grid_length : length (grid N) = N.
Proof. unfold grid. now rewrite map_length, seq_length. Qed.

Lemma pick_invariant vars F c : vars <> [] -> Nat.divide (length vars) N -> (forall v, In v vars -> invariant (F v) c) ->
  invariant (pickp vars F) (S c).
Proof.
  intros NE D I h. set (n := length vars). assert (n0 : 0 < n) by (unfold n; destruct vars; [contradiction|cbn; lia]).
  assert (Q0 : qnat n <> 0%Qc) by now apply qnat_neq0.
  set (G := fun x i => qsum (map (fun l => val h (F (nth i vars "") x l)) (streams N c))).
  assert (E : forall x, (qnat n * qsum (map (fun l => val h (pickp vars F x l)) (streams N (S c))) = NN * bigsum n (G x))%Qc).
  { intros x. rewrite streams_S. unfold draws. rewrite qsum_prod.
    transitivity (qnat n * qsum (map (fun _ : Qc => qsum (map (fun c0 => G x (Nat.modulo c0 n)) (seq 0 N))) (grid N)))%Qc.
    - reflexivity.
    - rewrite qsum_const, grid_length. replace (NN * bigsum n (G x))%Qc with (qnat N * (qnat N * bigsum n (G x)))%Qc by ring.
      rewrite <- (mod_count N n (G x) n0 D). ring. }
  assert (R : (qnat n * qsum (map (fun x => joint b x * qsum (map (fun l => val h (pickp vars F x l)) (streams N (S c))))%Qc (worlds b ev)) =
          qnat n * (powc NN (S c) * qsum (map (fun x => joint b x * h x)%Qc (worlds b ev))))%Qc).
  { rewrite <- qsum_mult_l.
    transitivity (qsum (map (fun x => NN * (joint b x * bigsum n (G x)))%Qc (worlds b ev))).
    - apply qsum_map_ext. intros x _. rewrite Qcmult_assoc, (Qcmult_comm (qnat n)), <- Qcmult_assoc, E. ring.
    - rewrite qsum_mult_l. cbn [powc].
      replace (qsum (map (fun x => joint b x * bigsum n (G x))%Qc (worlds b ev))) with
        (qnat n * (powc NN c * qsum (map (fun x => joint b x * h x)%Qc (worlds b ev))))%Qc; [ring|].
      transitivity (bigsum n (fun i => qsum (map (fun x => joint b x * G x i)%Qc (worlds b ev)))).
      + unfold bigsum. rewrite <- (seq_length n 0) at 1. rewrite <- qsum_const. symmetry. apply qsum_map_ext.
        intros i Hi. apply in_seq in Hi. apply I. apply nth_In. fold n. lia.
      + unfold bigsum. rewrite qsum_swap. apply qsum_map_ext. intros x _. now rewrite qsum_mult_l. }
  destruct (Qc_eq_dec (qsum (map (fun x => joint b x * qsum (map (fun l => val h (pickp vars F x l)) (streams N (S c))))%Qc (worlds b ev)))
     (powc NN (S c) * qsum (map (fun x => joint b x * h x)%Qc (worlds b ev)))%Qc) as [Y|Y]; [exact Y|].
  exfalso. apply Y. apply (f_equal (fun z => / qnat n * z)%Qc) in R. rewrite !Qcmult_assoc, (Qcmult_comm (/ _)), Qcmult_inv_r in R by exact Q0.
  now rewrite !Qcmult_1_l in R.
Qed.
End Net.
