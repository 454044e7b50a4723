(** Counting on grids. *)
From Coq Require Import Field.
From Verif Require Import Base NDArray Factor Exact Spec BaseFacts FactorProofs Sampling MCSpec MCFacts LawSpec.

Lemma qnat_add a c : qnat (a + c) = (qnat a + qnat c)%Qc.
Proof. induction a as [|a IH]; cbn [Nat.add]; [rewrite qnat_0; ring|]. rewrite !qnat_S, IH. ring. Qed.
Lemma qnat_mul a c : qnat (a * c) = (qnat a * qnat c)%Qc.
Proof. induction a as [|a IH]; cbn [Nat.mul]; [rewrite qnat_0; ring|]. rewrite qnat_add, qnat_S, IH. ring. Qed.
Lemma qnat_neq0 n : 0 < n -> qnat n <> 0%Qc.
Proof. intros H E. pose proof (qnat_pos n H) as P. rewrite E in P. now apply Qc_lt_irrefl in P. Qed.
Lemma qnat_le a c : a <= c -> (qnat a <= qnat c)%Qc.
Proof.
  intros H. replace c with (a + (c - a)) by lia. rewrite qnat_add. replace (qnat a) with (qnat a + 0)%Qc at 1 by ring.
  apply Qcplus_le_compat; [apply Qcle_refl|apply qnat_nonneg].
Qed.
Lemma qnat_le_iff a c : (qnat a <= qnat c)%Qc <-> a <= c.
Proof.
  split; [|apply qnat_le]. intros H. destruct (Nat.le_gt_cases a c) as [L|L]; [exact L|exfalso].
  apply (Qcle_not_lt _ _ H). replace a with (S c + (a - S c)) by lia. rewrite qnat_add, qnat_S.
  apply Qclt_le_trans with (1 + qnat c)%Qc.
  - replace (qnat c) with (0 + qnat c)%Qc at 1 by ring. apply Qcplus_lt_compat_r || idtac.
    apply Qclt_minus_iff. replace (1 + qnat c + - (0 + qnat c))%Qc with 1%Qc by ring. reflexivity.
  - replace (1 + qnat c)%Qc with (1 + qnat c + 0)%Qc at 1 by ring. apply Qcplus_le_compat; [apply Qcle_refl|apply qnat_nonneg].
Qed.
Lemma qnat_inj a c : qnat a = qnat c -> a = c.
Proof.
  intros H. apply Nat.le_antisymm; apply qnat_le_iff; rewrite H; apply Qcle_refl.
Qed.

(** Numbers that are multiples of 1/N. *)
Definition fine (N : nat) (a : Qc) : Prop := exists z, (qnat N * a = qnat z)%Qc.

Definition ind (x : bool) : Qc := if x then 1%Qc else 0%Qc.

Lemma grid_in N u : In u (grid N) -> (0 < u)%Qc /\ (u < 1)%Qc.
Proof.
  intros H. apply in_map_iff in H as (j & <- & H). apply in_seq in H. assert (P := qnat_pos (2 * N) ltac:(lia)).
  split.
  - apply Qc_nonneg_neq0_pos.
    + apply Qcdiv_nonneg; [apply qnat_nonneg|exact P].
    + intros E. apply (f_equal (fun x => x * qnat (2 * N))%Qc) in E. unfold Qcdiv in E.
      rewrite <- Qcmult_assoc, (Qcmult_comm (/ _)), Qcmult_inv_r, Qcmult_1_r in E by now apply qnat_neq0; lia.
      replace (0 * qnat (2 * N))%Qc with (qnat 0) in E by (rewrite qnat_0; ring). apply qnat_inj in E. lia.
  - apply Qcnot_le_lt. intros L. apply (fun h => Qcmult_le_compat_r _ _ (qnat (2 * N)) h (qnat_nonneg _)) in L.
    unfold Qcdiv in L.
    rewrite <- Qcmult_assoc, (Qcmult_comm (/ _)), Qcmult_inv_r, Qcmult_1_r, Qcmult_1_l in L by now apply qnat_neq0; lia.
    apply qnat_le_iff in L. lia.
Qed.

Lemma grid_le N j z a : j < N -> (qnat N * a = qnat z)%Qc -> ((qnat (2 * j + 1) / qnat (2 * N) <= a)%Qc <-> j < z).
Proof.
  intros J Z. assert (P := qnat_pos (2 * N) ltac:(lia)).
  transitivity (qnat (2 * j + 1) <= qnat (2 * z))%Qc; [|rewrite qnat_le_iff; lia].
  assert (E : qnat (2 * z) = (a * qnat (2 * N))%Qc) by (rewrite !qnat_mul, <- Z; ring). rewrite E.
  split; intros H.
  - apply (fun h => Qcmult_le_compat_r _ _ (qnat (2 * N)) h (qnat_nonneg _)) in H. unfold Qcdiv in H.
    now rewrite <- Qcmult_assoc, (Qcmult_comm (/ _)), Qcmult_inv_r, Qcmult_1_r in H by now apply qnat_neq0; lia.
  - apply Qcnot_lt_le. intros L. apply (Qcle_not_lt _ _ H). 
    apply (Qcmult_lt_compat_r _ _ (qnat (2 * N)) P) in L. unfold Qcdiv in L.
    now rewrite <- (Qcmult_assoc (qnat (2 * j + 1))), (Qcmult_comm (/ _)), Qcmult_inv_r, Qcmult_1_r in L by now apply qnat_neq0; lia.
Qed.

Lemma sum_below N z : z <= N -> qsum (map (fun j => ind (Nat.ltb j z)) (seq 0 N)) = qnat z.
Proof.
  intros L. replace N with (z + (N - z)) by lia. rewrite seq_app, map_app, qsum_app. cbn [Nat.add].
  rewrite (qsum_zero _ (seq z (N - z))).
  - replace (qsum _) with (qsum (map (fun _ : nat => 1%Qc) (seq 0 z))).
    + clear L. assert (G : forall k, qsum (map (fun _ : nat => 1%Qc) (seq k z)) = qnat z).
      { induction z as [|z IH]; intros k; [reflexivity|]. cbn [seq map qsum]. rewrite IH, qnat_S. reflexivity. }
      rewrite G. ring.
    + apply qsum_map_ext. intros j H. apply in_seq in H. unfold ind. rewrite (proj2 (Nat.ltb_lt j z)) by lia. reflexivity.
  - intros j H. apply in_seq in H. unfold ind. rewrite (proj2 (Nat.ltb_ge j z)) by lia. reflexivity.
Qed.

(** The share of grid points up to [a] is [a]. *)
Lemma grid_count N a : 0 < N -> fine N a -> (a <= 1)%Qc -> qsum (map (fun u => ind (qleb u a)) (grid N)) = (qnat N * a)%Qc.
Proof.
  intros N0 [z Z] A. unfold grid. rewrite map_map.
  rewrite (qsum_map_ext _ (fun j => ind (Nat.ltb j z))).
  - rewrite Z. apply sum_below. apply qnat_le_iff. rewrite <- Z. replace (qnat N) with (qnat N * 1)%Qc at 2 by ring.
    rewrite (Qcmult_comm _ a), (Qcmult_comm _ 1). apply Qcmult_le_compat_r; [exact A|apply qnat_nonneg].
  - intros j H. apply in_seq in H. f_equal. apply eq_true_iff_eq. rewrite qleb_true, Nat.ltb_lt. apply grid_le; [lia|exact Z].
Qed.

(** The positions modulo n are equally frequent. *)
Lemma mod_count N n (G : nat -> Qc) : 0 < n -> Nat.divide n N ->
  (qnat n * qsum (map (fun c => G (Nat.modulo c n)) (seq 0 N)) = qnat N * bigsum n G)%Qc.
Proof.
  intros N0 [q ->]. assert (H : qsum (map (fun c => G (Nat.modulo c n)) (seq 0 (q * n))) = (qnat q * bigsum n G)%Qc).
  { induction q as [|q IH]; [cbn; rewrite qnat_0; ring|]. replace (S q * n) with (q * n + n) by lia.
    rewrite seq_app, map_app, qsum_app, IH. cbn [Nat.add]. rewrite qnat_S.
    replace (qsum (map (fun c => G (c mod n)) (seq (q * n) n))) with (bigsum n G); [ring|]. unfold bigsum. symmetry.
    replace (seq (q * n) n) with (map (fun i => i + q * n) (seq 0 n)).
    - rewrite map_map. apply qsum_map_ext. intros i Hi. apply in_seq in Hi. f_equal.
      rewrite Nat.mod_add by lia. apply Nat.mod_small. lia.
    - assert (S : forall m k p, map (fun i => i + p) (seq k m) = seq (k + p) m).
      { clear. induction m as [|m IH]; intros k p; [reflexivity|]. cbn [seq map]. rewrite IH. reflexivity. }
      apply S. }
  rewrite H, qnat_mul. ring.
Qed.

(** ** Streams *)
Lemma qsum_const {A} (c : Qc) (l : list A) : qsum (map (fun _ => c) l) = (qnat (length l) * c)%Qc.
Proof. induction l as [|x l IH]; cbn [map qsum length]; [rewrite qnat_0; ring|]. rewrite IH, qnat_S. ring. Qed.

Lemma qsum_prod {A B} (F : A * B -> Qc) la lb :
  qsum (map F (list_prod la lb)) = qsum (map (fun x => qsum (map (fun y => F (x, y)) lb)) la).
Proof.
  induction la as [|x la IH]; cbn [list_prod map]; [reflexivity|]. rewrite map_app, qsum_app, IH, map_map. reflexivity.
Qed.

Lemma streams_length N m : Forall (fun l => length l = m) (streams N m).
Proof.
  induction m as [|m IH]; cbn [streams]; [repeat constructor|]. apply Forall_forall. intros l H.
  apply in_flat_map in H as (d & D & H). apply in_map_iff in H as (l' & <- & H). cbn.
  now rewrite (proj1 (Forall_forall _ _) IH l' H).
Qed.

Lemma streams_draws N m l : In l (streams N m) -> Forall (fun d => In d (draws N)) l.
Proof.
  revert l. induction m as [|m IH]; intros l H; cbn [streams] in H; [destruct H as [<-|[]]; constructor|].
  apply in_flat_map in H as (d & D & H). apply in_map_iff in H as (l' & <- & H). constructor; auto.
Qed.

Lemma streams_S N m (F : list (Qc * nat) -> Qc) :
  qsum (map F (streams N (S m))) = qsum (map (fun d => qsum (map (fun l => F (d :: l)) (streams N m))) (draws N)).
Proof. cbn [streams]. rewrite qsum_flat_map. apply qsum_map_ext. intros d _. now rewrite map_map. Qed.

Lemma streams_split N m1 m2 (F : list (Qc * nat) -> Qc) :
  qsum (map F (streams N (m1 + m2))) =
  qsum (map (fun l1 => qsum (map (fun l2 => F (l1 ++ l2)) (streams N m2))) (streams N m1)).
Proof.
  revert F. induction m1 as [|m1 IH]; intros F.
  - cbn [Nat.add streams map qsum app]. rewrite Qcplus_0_r. reflexivity.
  - cbn [Nat.add]. rewrite !streams_S. apply qsum_map_ext. intros d _. exact (IH (fun l => F (d :: l))).
Qed.

Fixpoint powc (c : Qc) (m : nat) : Qc := match m with 0 => 1%Qc | S m' => (c * powc c m')%Qc end.

Lemma powc_add c m1 m2 : powc c (m1 + m2) = (powc c m1 * powc c m2)%Qc.
Proof. induction m1 as [|m1 IH]; cbn [Nat.add powc]; [ring|]. rewrite IH. ring. Qed.

Lemma powc_neq0 c m : c <> 0%Qc -> powc c m <> 0%Qc.
Proof. intros C. induction m as [|m IH]; cbn [powc]; [discriminate|]. intros E. apply Qcmult_integral in E as [E|E]; auto. Qed.

Lemma draws_length N : length (draws N) = N * N.
Proof. unfold draws. rewrite prod_length. unfold grid. rewrite map_length, seq_length. reflexivity. Qed.

Lemma streams_count N m : qnat (length (streams N m)) = powc (qnat N * qnat N) m.
Proof.
  induction m as [|m IH]; [reflexivity|]. rewrite <- (Qcmult_1_r (qnat (length _))), <- qsum_const, streams_S, qsum_const, qsum_const, draws_length.
  rewrite qnat_mul, IH. cbn [powc]. ring.
Qed.

(** Chances as sums. *)
Lemma chance_sum N m P : (chance N m P * powc (qnat N * qnat N) m = qsum (map (fun l => ind (P (gen l))) (streams N m)))%Qc \/ N = 0.
Proof.
  destruct N as [|N]; [now right|left]. unfold chance, Qcdiv. rewrite <- streams_count.
  rewrite <- Qcmult_assoc, (Qcmult_comm (/ _)), Qcmult_inv_r, Qcmult_1_r.
  - rewrite <- qsum_indicator. reflexivity.
  - rewrite streams_count. apply powc_neq0. intros E. apply Qcmult_integral in E. destruct E as [E|E]; (apply qnat_neq0 in E; [exact E|lia]).
Qed.
