(** Sums over assignments of value indices to variables. *)
From Verif Require Import Base BaseFacts NDArray NDArrayFacts.

(** An assignment gives each variable the index of its value. *)
Definition asg := string -> nat.

Definition upd (a : asg) (v : string) (i : nat) : asg :=
  fun w => if String.eqb w v then i else a w.

Lemma upd_eq a v i : upd a v i v = i.
Proof. unfold upd; rewrite String.eqb_refl; reflexivity. Qed.

Lemma upd_neq a v i w : w <> v -> upd a v i w = a w.
Proof. intros n; unfold upd. rewrite (eqb_neq_s _ _ n); reflexivity. Qed.

Section Sums.
Variable card : string -> nat.

Definition inrange (vs : list string) (a : asg) : Prop := forall v, In v vs -> a v < card v.

Fixpoint sum_over (vs : list string) (F : asg -> Qc) (a : asg) : Qc :=
  match vs with
  | [] => F a
  | v :: vs' => bigsum (card v) (fun i => sum_over vs' F (upd a v i))
  end.

(** [F] looks only at the variables in [S]. *)
Definition deps (S : list string) (F : asg -> Qc) : Prop :=
  forall a b, (forall v, In v S -> a v = b v) -> F a = F b.

Definition ext (F : asg -> Qc) : Prop := forall a b, (forall v, a v = b v) -> F a = F b.

Lemma deps_ext S F : deps S F -> ext F.
Proof. intros H a b E; apply H; intros; apply E. Qed.

Lemma deps_incl S T F : incl S T -> deps S F -> deps T F.
Proof. intros I H a b E; apply H. intros v Hv; apply E, I, Hv. Qed.

Lemma sum_over_ext_in vs F G a :
  (forall b, inrange vs b -> (forall v, ~ In v vs -> b v = a v) -> F b = G b) ->
  sum_over vs F a = sum_over vs G a.
Proof.
  revert a; induction vs as [|v vs IH]; intros a H; cbn.
  - apply H; [intros v []|reflexivity].
  - apply bigsum_ext. intros i Hi. apply IH. intros b Rb Eb.
    destruct (In_dec_s v vs) as [Iv|Nv].
    + apply H.
      * intros w [<-|Hw]; apply Rb; assumption.
      * intros w Hw. rewrite Eb by (intros X; apply Hw; right; exact X).
        apply upd_neq. intros ->. apply Hw; left; reflexivity.
    + apply H.
      * intros w [<-|Hw]; [rewrite Eb by exact Nv; rewrite upd_eq; exact Hi|apply Rb, Hw].
      * intros w Hw. rewrite Eb by (intros X; apply Hw; right; exact X).
        apply upd_neq. intros ->. apply Hw; left; reflexivity.
Qed.

Lemma sum_over_ext vs F G a : (forall b, F b = G b) -> sum_over vs F a = sum_over vs G a.
Proof. intros H; apply sum_over_ext_in; intros; apply H. Qed.

Lemma sum_over_app vs ws F a : sum_over (vs ++ ws) F a = sum_over vs (sum_over ws F) a.
Proof.
  revert a; induction vs as [|v vs IH]; intros a; cbn; [reflexivity|].
  apply bigsum_ext; intros; apply IH.
Qed.

(** The value depends on [a] only through variables that are not summed. *)
Lemma sum_over_deps S vs F : deps S F ->
  forall a b, (forall v, In v S -> ~ In v vs -> a v = b v) -> sum_over vs F a = sum_over vs F b.
Proof.
  intros D. induction vs as [|v vs IH]; intros a b E; cbn.
  - apply D. intros v Hv; apply E; [exact Hv|tauto].
  - apply bigsum_ext; intros i _. apply IH. intros w Hw Nw. unfold upd.
    destruct (String.eqb_spec w v); [reflexivity|]. apply E; [exact Hw|]. cbn; intuition congruence.
Qed.

Lemma sum_over_ext_asg vs F : ext F -> ext (sum_over vs F).
Proof.
  intros D. induction vs as [|v vs IH]; intros a b E; cbn; [apply D, E|].
  apply bigsum_ext; intros i _. apply IH. intros w; unfold upd. rewrite E; reflexivity.
Qed.

Lemma sum_over_perm vs ws F : ext F -> Permutation vs ws ->
  forall a, sum_over vs F a = sum_over ws F a.
Proof.
  intros D P. induction P as [|x l l' P IH|x y l|l l' l'' P1 IH1 P2 IH2]; intros a; cbn.
  - reflexivity.
  - apply bigsum_ext; intros; apply IH.
  - destruct (string_dec x y) as [->|n]; [reflexivity|].
    rewrite bigsum_swap. apply bigsum_ext; intros i _. apply bigsum_ext; intros j _.
    apply sum_over_ext_asg; [exact D|]. intros w; unfold upd.
    destruct (String.eqb_spec w x), (String.eqb_spec w y); congruence.
  - rewrite IH1; apply IH2.
Qed.

Lemma sum_over_mult_l vs S G F a : deps S G -> (forall v, In v S -> ~ In v vs) ->
  sum_over vs (fun b => G b * F b)%Qc a = (G a * sum_over vs F a)%Qc.
Proof.
  intros D N. revert a; induction vs as [|v vs IH]; intros a; cbn; [reflexivity|].
  rewrite <- bigsum_mult_l. apply bigsum_ext; intros i _.
  rewrite IH by (intros w Hw X; apply (N w Hw); right; exact X). f_equal.
  apply D. intros w Hw. apply upd_neq. intros ->. apply (N v Hw); left; reflexivity.
Qed.

Lemma sum_over_mult_r vs S G F a : deps S G -> (forall v, In v S -> ~ In v vs) ->
  sum_over vs (fun b => F b * G b)%Qc a = (sum_over vs F a * G a)%Qc.
Proof.
  intros D N. rewrite Qcmult_comm, <- (sum_over_mult_l vs S) by assumption.
  apply sum_over_ext; intros; apply Qcmult_comm.
Qed.

Lemma sum_over_const_l vs c F a :
  sum_over vs (fun b => c * F b)%Qc a = (c * sum_over vs F a)%Qc.
Proof. apply (sum_over_mult_l vs [] (fun _ => c)); [intros ? ? _; reflexivity|intros v []]. Qed.

Lemma sum_over_plus vs F G a :
  sum_over vs (fun b => F b + G b)%Qc a = (sum_over vs F a + sum_over vs G a)%Qc.
Proof.
  revert a; induction vs as [|v vs IH]; intros a; cbn; [reflexivity|].
  rewrite <- bigsum_plus. apply bigsum_ext; intros; apply IH.
Qed.

Lemma sum_over_nonneg vs F a :
  (forall b, inrange vs b -> (forall v, ~ In v vs -> b v = a v) -> (0 <= F b)%Qc) ->
  (0 <= sum_over vs F a)%Qc.
Proof.
  revert a; induction vs as [|v vs IH]; intros a H; cbn.
  - apply H; [intros v []|reflexivity].
  - apply bigsum_nonneg; intros i Hi. apply IH. intros b Rb Eb. apply H.
    + intros w [<-|Hw]; [|apply Rb, Hw]. destruct (In_dec_s v vs) as [I|N]; [apply Rb, I|].
      rewrite (Eb _ N), upd_eq; exact Hi.
    + intros w Hw. rewrite Eb by (intros X; apply Hw; right; exact X). apply upd_neq.
      intros ->; apply Hw; left; reflexivity.
Qed.

(** A zero sum of non-negative terms has only zero terms. *)
Lemma sum_over_zero_terms vs F : ext F -> NoDup vs -> forall a,
  (forall b, inrange vs b -> (forall v, ~ In v vs -> b v = a v) -> (0 <= F b)%Qc) ->
  sum_over vs F a = 0%Qc ->
  forall b, inrange vs b -> (forall v, ~ In v vs -> b v = a v) -> F b = 0%Qc.
Proof.
  intros D ND. induction ND as [|v vs Nv ND IH]; intros a H E b Rb Eb; cbn in E.
  - rewrite <- E. apply D. intros w; apply Eb; tauto.
  - assert (Ei : sum_over vs F (upd a v (b v)) = 0%Qc).
    { apply (bigsum_nonneg_zero _ (fun i => sum_over vs F (upd a v i))) with (i := b v) in E.
      - exact E.
      - intros i Hi. apply sum_over_nonneg. intros c Rc Ec. apply H.
        + intros w [<-|Hw]; [rewrite (Ec _ Nv), upd_eq; exact Hi|apply Rc, Hw].
        + intros w Hw. rewrite Ec by (intros X; apply Hw; right; exact X). apply upd_neq.
          intros ->; apply Hw; left; reflexivity.
      - apply Rb; left; reflexivity. }
    apply (IH _) with (b := b) in Ei; [exact Ei| | |].
    + intros c Rc Ec. apply H.
      * intros w [<-|Hw]; [rewrite (Ec _ Nv), upd_eq; apply Rb; left; reflexivity|apply Rc, Hw].
      * intros w Hw. rewrite Ec by (intros X; apply Hw; right; exact X). apply upd_neq.
        intros ->; apply Hw; left; reflexivity.
    + intros w Hw; apply Rb; right; exact Hw.
    + intros w Hw. unfold upd. destruct (String.eqb_spec w v) as [->|n]; [reflexivity|].
      apply Eb. cbn; intuition congruence.
Qed.

Lemma sum_over_zero vs F a : (forall b, inrange vs b -> (forall v, ~ In v vs -> b v = a v) -> F b = 0%Qc) ->
  sum_over vs F a = 0%Qc.
Proof.
  intros H. rewrite (sum_over_ext_in vs F (fun _ => 0 * 0)%Qc).
  - rewrite sum_over_const_l. ring.
  - intros b R E. rewrite H by assumption. ring.
Qed.

(** Summing a table over all its cells. *)
Lemma sum_indices vs (G : list nat -> Qc) : NoDup vs -> forall a,
  qsum (map G (indices (map card vs))) = sum_over vs (fun b => G (map b vs)) a.
Proof.
  intros ND. revert G. induction ND as [|v vs Nv ND IH]; intros G a; cbn.
  - ring.
  - rewrite qsum_flat_map. apply bigsum_ext. intros i _.
    rewrite map_map, (IH (fun ix => G (i :: ix)) (upd a v i)).
    apply sum_over_ext_in. intros b _ Eb. rewrite (Eb _ Nv), upd_eq. reflexivity.
Qed.

End Sums.

(** The assignment described by a multi-index. *)
Definition asg_of (order : list string) (ix : list nat) : asg := fun v => nth (idx v order) ix 0.

Lemma map_asg_of order ix : NoDup order -> length ix = length order ->
  map (asg_of order ix) order = ix.
Proof.
  intros ND L. apply nth_ext with (d := 0) (d' := 0); [rewrite map_length; congruence|].
  intros n Hn. rewrite map_length in Hn.
  rewrite nth_indep with (d' := asg_of order ix "") by (rewrite map_length; exact Hn).
  rewrite (map_nth (asg_of order ix)). unfold asg_of. rewrite idx_nth by assumption. reflexivity.
Qed.

Lemma inb_nth sh ix n : inb sh ix -> n < length sh -> nth n ix 0 < nth n sh 0.
Proof.
  unfold inb. intros H; revert n. induction H as [|i d ix sh L H IH]; cbn; intros n Hn; [lia|].
  destruct n; [exact L|apply IH; lia].
Qed.

Lemma inb_asg_of card order ix : inb (map card order) ix ->
  inrange card order (asg_of order ix).
Proof.
  intros H v Hv. unfold asg_of. assert (Hi := idx_lt v order Hv).
  assert (G := inb_nth _ _ (idx v order) H). rewrite map_length in G. specialize (G Hi).
  rewrite (nth_indep (map card order) 0 (card "")) in G by (rewrite map_length; exact Hi).
  rewrite (map_nth card), nth_idx in G by exact Hv. exact G.
Qed.
