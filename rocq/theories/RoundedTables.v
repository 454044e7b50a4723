(** How errors in the tables carry over to the posterior. *)
From Verif Require Import Base BaseFacts NDArray NDArrayFacts Factor Exact Spec SpecFacts Rounded RoundedSpec RoundedProof.

Section Tables.
Context {RD : Rounding}.

Lemma qprod_close k l l' : Forall2 (close k) l l' -> close (k * length l) (qprod l) (qprod l').
Proof.
  induction 1 as [|x y l l' H F IH]; cbn [qprod length].
  - rewrite Nat.mul_0_r. apply close_refl. discriminate.
  - replace (k * S (length l)) with (k + k * length l) by lia. apply close_mul; assumption.
Qed.
Lemma qsum_close k l l' : Forall2 (close k) l l' -> close k (qsum l) (qsum l').
Proof. induction 1 as [|x y l l' H F IH]; cbn [qsum]; [apply close_refl, Qcle_refl|]. apply close_add; assumption. Qed.

Variables (k : nat) (b b' : bn).
Hypothesis CB : close_bn k b b'.
Variable ev : evidence.
Hypothesis WB : wf_bn b.
Hypothesis EV : ev_ok b ev.

Lemma close_entry n n' s : close_node k n n' -> close k (entry n s) (entry n' s).
Proof.
  intros (E1 & E2 & E3 & E4 & E5 & F). unfold entry. rewrite E1, E2, E3. apply anear_get. split; [symmetry; exact E5|exact F].
Qed.

Lemma close_vars : bvars b' = bvars b /\ bnames b' = bnames b.
Proof.
  destruct CB as [F _]. unfold bvars, bnames. induction F as [|n n' l l' (E1 & E2 & _) F [I1 I2]]; cbn; [auto|]. rewrite E1, E2, I1, I2. auto.
Qed.

Lemma evidence_weight_nonneg n s : In n (bnodes b) -> (0 <= evidence_weight ev n s)%Qc.
Proof.
  intros Hn. unfold evidence_weight. destruct (dget (dn_name n) ev) as [[y|p]|] eqn:E; [|apply nth_Forall_nonneg|discriminate].
  - destruct (String.eqb _ _); [discriminate|apply Qcle_refl].
  - destruct EV as [_ EO]. apply dget_In in E. apply (EO _ _ E). apply in_map, Hn.
Qed.

Lemma close_weight s : close (k * length (bnodes b)) (weight b ev s) (weight b' ev s).
Proof.
  unfold weight, joint. rewrite <- (Nat.add_0_r (k * length (bnodes b))). apply close_mul.
  - rewrite <- (map_length (fun n => entry n s)). apply qprod_close. destruct CB as [F _]. induction F; cbn; constructor; [apply close_entry; assumption|assumption].
  - assert (E : qprod (map (fun n => evidence_weight ev n s) (bnodes b')) = qprod (map (fun n => evidence_weight ev n s) (bnodes b))).
    { f_equal. destruct CB as [F _]. clear - F. induction F as [|n n' l l' (E1 & E2 & _) F I]; cbn; [reflexivity|]. rewrite I. f_equal. unfold evidence_weight. rewrite E1, E2. reflexivity. }
    rewrite E. apply close_refl. apply qprod_nonneg, Forall_forall. intros x Hx. apply in_map_iff in Hx as (n & <- & Hn). apply evidence_weight_nonneg, Hn.
Qed.

Lemma close_mass q : close (k * length (bnodes b)) (mass b ev q) (mass b' ev q).
Proof.
  unfold mass. rewrite (proj1 close_vars). apply qsum_close. induction (filter (agrees q) (states (bvars b))); cbn; constructor; [apply close_weight|assumption].
Qed.

Theorem close_posterior q : close (2 * (k * length (bnodes b))) (posterior b ev q) (posterior b' ev q).
Proof.
  unfold posterior. assert (M := close_mass []). assert (E : qeqb (mass b' ev []) 0 = qeqb (mass b ev []) 0).
  { apply Bool.eq_iff_eq_true. rewrite !qeqb_true. assert (P := close_pos _ _ _ M). destruct M as (M1 & M2 & _).
    split; intros Z; rewrite Z in P; [destruct (Qc_dec (mass b ev []) 0) as [[D|D]|D]|destruct (Qc_dec (mass b' ev []) 0) as [[D|D]|D]]; try exact D.
    - exfalso. exact (Qclt_not_le _ _ D M1). - exfalso. apply P in D. exact (Qc_lt_irrefl _ D).
    - exfalso. exact (Qclt_not_le _ _ D M2). - exfalso. apply P in D. exact (Qc_lt_irrefl _ D). }
  rewrite E. destruct (qeqb (mass b ev []) 0) eqn:Z; [apply close_refl, Qcle_refl|]. replace (2 * (k * length (bnodes b))) with (k * length (bnodes b) + k * length (bnodes b)) by lia.
  apply close_mul; [apply close_mass|]. apply close_inv; [exact M|]. apply Qc_nonneg_neq0_pos; [apply M|apply qeqb_false, Z].
Qed.

Lemma close_values v : values_of b' v = values_of b v.
Proof.
  destruct CB as [F _]. unfold values_of. induction F as [|n n' l l' (E1 & E2 & _) F I]; cbn; [reflexivity|]. rewrite E1. destruct (String.eqb v (dn_name n)); [exact E2|exact I].
Qed.

Lemma close_wf : wf_bn b'.
Proof.
  split; [rewrite (proj2 close_vars); apply WB|]. intros n' Hn'. destruct CB as [F _].
  assert (X : exists n, In n (bnodes b) /\ close_node k n n').
  { clear - F Hn'. induction F as [|n m l l' H F I]; [destruct Hn'|]. destruct Hn' as [<-|Hn']; [exists n; split; [left; reflexivity|exact H]|]. destruct (I Hn') as (n2 & H1 & H2). exists n2. split; [right; exact H1|exact H2]. }
  destruct X as (n & Hn & (E1 & E2 & E3 & E4 & E5 & D)). destruct (wb_nodes _ WB n Hn) as [W1 W2 W3 W4 W5 W6]. split; rewrite ?E1, ?E2, ?E3, ?E4, ?E5; try assumption.
  - intros p vals Hp. destruct (W3 p vals Hp) as (m & Hm & M1 & M2). clear - F Hm M1 M2. induction F as [|x y l l' (A1 & A2 & _) F I]; [destruct Hm|].
    destruct Hm as [<-|Hm]; [exists y; split; [left; reflexivity|]; split; congruence|]. destruct (I Hm) as (m2 & H1 & H2). exists m2. split; [right; exact H1|exact H2].
  - rewrite <- (forall2_length _ _ _ _ _ D). exact W5.
Qed.

Lemma close_nonneg : nonneg_bn b'.
Proof.
  intros n' Hn'. destruct CB as [F _]. induction F as [|n m l l' (_ & _ & _ & _ & _ & D) F I]; [destruct Hn'|]. destruct Hn' as [<-|Hn']; [|apply I, Hn'].
  clear - D. induction D as [|x y l l' C D I]; constructor; [apply C|exact I].
Qed.

Lemma close_ev : ev_ok b' ev.
Proof. destruct EV as [E1 E2]. split; [exact E1|]. intros v e H I. rewrite (proj2 close_vars) in I. specialize (E2 v e H I). rewrite close_values. exact E2. Qed.
End Tables.
