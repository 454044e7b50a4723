(** The distribution of forward samples; chains do not see the order of the entries
    of a state. *)
From Coq Require Import Field QArith.
From Verif Require Import Base NDArray Factor Exact Spec OrderSpec BaseFacts FactorProofs SpecFacts Sampling MCSpec MCFacts MCProof MCTop MCChain MCForward
  LawSpec LawCount LawKernel LawOne LawChain LawPost LawMean LawErgodic.

(** ** Counting boxes *)
Definition betweenb (r : Qc) (p : Qc * Qc) : bool := negb (qleb r (fst p)) && qleb r (snd p).
Lemma betweenb_ok r p : betweenb r p = true <-> between r p.
Proof.
  unfold betweenb, between. rewrite andb_true_iff, negb_true_iff, qleb_true. split; intros [A B]; (split; [|exact B]).
  - apply Qcnot_le_lt. intros H. apply qleb_true in H. congruence.
  - apply not_true_iff_false. rewrite qleb_true. intros H. exact (Qclt_not_le _ _ A H).
Qed.

Fixpoint inside (l : list (Qc * nat)) (boxes : list (Qc * Qc)) : bool :=
  match l, boxes with
  | [], [] => true
  | d :: l', p :: ps => betweenb (fst d) p && inside l' ps
  | _, _ => false
  end.

Lemma inside_ok l boxes : inside l boxes = true <-> Forall2 between (map fst l) boxes.
Proof.
  revert boxes. induction l as [|d l IH]; intros [|p ps]; cbn [inside map]; try (split; [discriminate|intros H; inversion H]).
  - split; [constructor|reflexivity].
  - rewrite andb_true_iff, betweenb_ok, IH. split; [intros [A B]; now constructor|intros H; inversion H; subst; auto].
Qed.

Definition box_fine (N : nat) (p : Qc * Qc) : Prop := fine N (fst p) /\ fine N (snd p) /\ (fst p <= snd p)%Qc /\ (snd p <= 1)%Qc.

Lemma ind_between u p : (fst p <= snd p)%Qc -> ind (betweenb u p) = (ind (qleb u (snd p)) - ind (qleb u (fst p)))%Qc.
Proof.
  intros L. unfold betweenb. destruct (qleb u (fst p)) eqn:A; cbn [negb andb].
  - apply qleb_true in A. rewrite (proj2 (qleb_true _ _) (Qcle_trans _ _ _ A L)). cbn [ind]. ring.
  - cbn [ind]. ring.
Qed.

Lemma box_count N boxes : 0 < N -> Forall (box_fine N) boxes ->
  qsum (map (fun l => ind (inside l boxes)) (streams N (length boxes))) = (powc (qnat N * qnat N) (length boxes) * qprod (map width boxes))%Qc.
Proof.
  intros N0 H. induction H as [|p ps (F1 & F2 & L & U) H IH]; [reflexivity|]. cbn [length map powc]. rewrite streams_S. unfold draws. rewrite qsum_prod.
  transitivity (qsum (map (fun u => qnat N * (ind (betweenb u p) * qsum (map (fun l => ind (inside l ps)) (streams N (length ps)))))%Qc (grid N))).
  - apply qsum_map_ext. intros u _. match goal with |- _ = (_ * ?y)%Qc => transitivity (qsum (map (fun _ : nat => y) (seq 0 N))); [|now rewrite qsum_const, seq_length] end.
    apply qsum_map_ext. intros c _. rewrite <- qsum_mult_l. apply qsum_map_ext. intros l _. cbn [inside fst]. destruct (betweenb u p), (inside l ps); cbn [ind andb]; ring.
  - rewrite IH, qsum_mult_l.
    rewrite (qsum_map_ext _ (fun u => powc (qnat N * qnat N) (length ps) * qprod (map width ps) * (ind (qleb u (snd p)) + (-(1)) * ind (qleb u (fst p))))%Qc)
      by (intros u _; rewrite (ind_between u p L); ring).
    rewrite qsum_mult_l, qsum_plus, qsum_mult_l, !grid_count; auto; [|eapply Qcle_trans; eauto]. rewrite qprod_cons. change (width p) with (snd p - fst p)%Qc. ring.
Qed.

(** ** States with the same values *)
Section Same.
Variable b : bn.
Hypothesis SN : sampled_net b.
Let WB := sn_bn b SN.
Definition same (x y : dict string) : Prop := forall v, In v (bnames b) -> dget v x = dget v y.
Definition alike (r s : res (dict string * nat)) : Prop :=
  match r, s with
  | Ok (x, k), Ok (y, k') => same x y /\ k = k'
  | Err e, Err e' => e = e'
  | _, _ => False
  end.

Lemma same_dset v a x y : same x y -> same (dset v a x) (dset v a y).
Proof. intros S u U. rewrite !dget_dset. destruct (String.eqb u v); auto. Qed.

Lemma sp_same n a x y : In n (bnodes b) -> same x y -> sp n a x = sp n a y.
Proof.
  intros Hn S. unfold sp. destruct (match dn_values n with [] => _ | _ => _ end); cbn [rbind]; [|reflexivity].
  replace (mapM (fun p => let* z := dget_err KeyError (fst p) x in py_index z (snd p)) (dn_parents n))
    with (mapM (fun p => let* z := dget_err KeyError (fst p) y in py_index z (snd p)) (dn_parents n)); [reflexivity|].
  apply mapM_ext. intros p P. unfold dget_err. rewrite (S (fst p)); [reflexivity|]. apply (fam_names b WB n); [exact Hn|]. right. now apply in_map.
Qed.

Lemma markov_same n a cs x y f : In n (bnodes b) -> incl cs (bnodes b) -> same x y -> get_markov_prob n a cs x f = get_markov_prob n a cs y f.
Proof.
  intros Hn I S. unfold get_markov_prob. rewrite (sp_same n a x y Hn S). destruct (sp n a y) as [p|]; cbn [rbind]; [|reflexivity].
  destruct f; [reflexivity|]. revert p. induction cs as [|c cs IH]; intros p; [reflexivity|]. cbn [foldM].
  assert (Hc : In c (bnodes b)) by (apply I; now left). unfold dget_err. rewrite (S (dn_name c)) by exact (in_map dn_name _ _ Hc).
  destruct (dget (dn_name c) y); cbn [rbind]; [|reflexivity]. rewrite (sp_same c _ x y Hc S). destruct (sp c _ y); cbn [rbind]; [|reflexivity].
  apply IH. intros z Z. apply I. now right.
Qed.

Lemma get_node_In v n : get_node b v = Ok n -> In n (bnodes b).
Proof. unfold get_node. destruct (find _ (bnodes b)) eqn:E; [|discriminate]. intros H. inversion H; subst. now apply find_some in E. Qed.

Lemma get_children_In v cs : get_children b v = Ok cs -> incl cs (bnodes b).
Proof.
  unfold get_children. destruct (mem v (border b)); [|discriminate]. intros H. apply mapM_ok in H. intros c C.
  induction H as [|a c' l l' E H IH]; [destruct C|]. destruct C as [<-|C]; [now apply get_node_In in E|now apply IH].
Qed.

Lemma one_same t g v x y k : In v (bnames b) -> same x y -> alike (change_one t g b (x, k) v) (change_one t g b (y, k) v).
Proof.
  intros Hv S. destruct t; cbn [change_one].
  - unfold gibbs_one. cbn [fst snd]. destruct (get_node b v) as [n|] eqn:GN; cbn [rbind]; [|reflexivity].
    destruct (get_children b v) as [cs|] eqn:GC; cbn [rbind]; [|reflexivity]. apply get_node_In in GN. apply get_children_In in GC.
    unfold sample_value.
    replace (mapM (fun a => get_markov_prob n a cs (dset (dn_name n) a x) false) (dn_values n)) with
      (mapM (fun a => get_markov_prob n a cs (dset (dn_name n) a y) false) (dn_values n)).
    + destruct (mapM _ _); cbn [rbind]; [|reflexivity]. destruct (roulette _ _ _ _); cbn [rbind alike]; [|reflexivity]. split; [now apply same_dset|reflexivity].
    + apply mapM_ext. intros a _. symmetry. apply markov_same; auto. now apply same_dset.
  - unfold mh_one. cbn [fst snd]. unfold dget_err. rewrite (S v Hv). destruct (dget v y); cbn [rbind]; [|reflexivity].
    destruct (get_node b v) as [n|] eqn:GN; cbn [rbind]; [|reflexivity]. apply get_node_In in GN.
    destruct (choice g k (dn_values n)) as [[a k1]|]; cbn [rbind]; [|reflexivity].
    destruct (get_children b v) as [cs|] eqn:GC; cbn [rbind]; [|reflexivity]. apply get_children_In in GC.
    rewrite (markov_same n a cs (dset v a x) (dset v a y) false GN GC (same_dset v a x y S)). destruct (get_markov_prob n a cs (dset v a y) false); cbn [rbind]; [|reflexivity].
    rewrite (markov_same n _ cs x y false GN GC S). destruct (get_markov_prob n _ cs y false); cbn [rbind alike]; [|reflexivity].
    split; [|reflexivity]. destruct (qleb _ _); [now apply same_dset|exact S].
Qed.

Lemma alike_bind r s f g : alike r s -> (forall x y k, same x y -> alike (f (x, k)) (g (y, k))) -> alike (let* a := r in f a) (let* a := s in g a).
Proof.
  intros A H. destruct r as [[x k]|e], s as [[y k']|e']; cbn [alike rbind] in *; try contradiction; [|exact A]. destruct A as [S <-]. now apply H.
Qed.

Lemma fold_same t g vs : incl vs (bnames b) -> forall x y k, same x y -> alike (foldM (change_one t g b) vs (x, k)) (foldM (change_one t g b) vs (y, k)).
Proof.
  induction vs as [|v vs IH]; intros I x y k S; [now split|]. cbn [foldM]. apply alike_bind; [apply one_same; auto; apply I; now left|].
  intros. apply IH; auto. intros z Z. apply I. now right.
Qed.

Lemma step_same t full g vs x y k : incl vs (bnames b) -> same x y -> alike (step t full g b vs (x, k)) (step t full g b vs (y, k)).
Proof.
  intros I S. unfold step. destruct full; [now apply fold_same|]. cbn [fst snd]. destruct (choice g k vs) as [[v k1]|] eqn:C; cbn [rbind]; [|reflexivity].
  apply one_same; auto. apply I. destruct (choice_ok g k vs) as (z & Z & E); [intros ->; discriminate C|]. congruence.
Qed.

Lemma burn_same t full g vs n : incl vs (bnames b) -> forall x y k, same x y ->
  alike (burn (step t full g b vs) n (x, k)) (burn (step t full g b vs) n (y, k)).
Proof.
  intros I. induction n as [|n IH]; intros x y k S; [now split|]. cbn [burn]. apply alike_bind; [now apply step_same|]. auto.
Qed.

(** The entries in the order of the nodes. *)
Definition canon (x : dict string) : dict string := map (fun n => (dn_name n, look x (dn_name n))) (bnodes b).

Lemma canon_look x : forall l, NoDup (map dn_name l) -> forall v, In v (map dn_name l) -> dget v (map (fun n => (dn_name n, look x (dn_name n))) l) = Some (look x v).
Proof.
  induction l as [|n l IH]; intros ND v V; [destruct V|]. cbn [map] in *. inversion ND as [|? ? A B]; subst. cbn [dget].
  destruct (String.eqb_spec v (dn_name n)) as [->|N]; [reflexivity|]. destruct V as [V|V]; [congruence|now apply IH].
Qed.

Lemma canon_same x : complete b x -> same x (canon x).
Proof.
  intros C v V. unfold canon. rewrite (canon_look x (bnodes b) (wb_names b WB) v V). destruct (C v V) as (a & A & _). now rewrite A, (look_dget _ _ _ A).
Qed.

Lemma canon_worlds ev x : complete b x -> keeps ev x -> incl (dkeys ev) (bnames b) -> NoDup (dkeys ev) -> In (canon x) (worlds b ev).
Proof.
  intros C K I ND. apply filter_In. split.
  - unfold canon, bvars. assert (H : forall n, In n (bnodes b) -> In (look x (dn_name n)) (dn_values n)).
    { intros n Hn. destruct (C (dn_name n) (in_map dn_name _ _ Hn)) as (a & A & Ia). rewrite (look_dget _ _ _ A). now rewrite (values_of_node b WB n Hn) in Ia. }
    induction (bnodes b) as [|n l IH]; [now left|]. cbn [map states]. apply in_flat_map. exists (look x (dn_name n)). split; [apply H; now left|].
    apply in_map. apply IH. intros m M. apply H. now right.
  - unfold agrees. apply forallb_forall. intros [v a] P. cbn [fst snd]. assert (V : In v (bnames b)) by (apply I; exact (in_map fst _ _ P)).
    rewrite (look_dget _ v (look x v)) by exact (canon_look x (bnodes b) (wb_names b WB) v V).
    rewrite (look_dget x v a); [apply String.eqb_refl|]. apply K. now apply In_dget.
Qed.
End Same.
