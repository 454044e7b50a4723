(** The operations on factor objects create new objects and write to these only. *)
From Verif Require Import Base BaseFacts NDArray NDArrayFacts Factor FactorHeap FactorHeapSpec.

Definition extends (m m' : memory) : Prop :=
  exists b l d f, m' = mkM (bufs m ++ b) (lists m ++ l) (dicts m ++ d) (facs m ++ f).
Definition valid (m : memory) (r : nat) : Prop :=
  r < length (facs m) /\ vbuf (opot (obj m r)) < length (bufs m) /\ oorder (obj m r) < length (lists m) /\ ovals (obj m r) < length (dicts m).
Definition own (m0 m : memory) (r : nat) : Prop :=
  extends m0 m /\ valid m r /\ length (facs m0) <= r /\ length (lists m0) <= oorder (obj m r) /\ length (dicts m0) <= ovals (obj m r).
Definition fresh (m0 m : memory) (r : nat) : Prop := own m0 m r /\ length (bufs m0) <= vbuf (opot (obj m r)).

Lemma extends_refl m : extends m m.
Proof. exists [], [], [], []. rewrite !app_nil_r. destruct m; reflexivity. Qed.
Lemma extends_trans a b c : extends a b -> extends b c -> extends a c.
Proof.
  intros (b1 & l1 & d1 & f1 & ->) (b2 & l2 & d2 & f2 & ->). cbn [bufs lists dicts facs].
  exists (b1 ++ b2), (l1 ++ l2), (d1 ++ d2), (f1 ++ f2). rewrite !app_assoc. reflexivity.
Qed.
Lemma extends_len a b : extends a b -> length (bufs a) <= length (bufs b) /\ length (lists a) <= length (lists b) /\
  length (dicts a) <= length (dicts b) /\ length (facs a) <= length (facs b).
Proof. intros (b1 & l1 & d1 & f1 & ->). cbn. rewrite !app_length. lia. Qed.

Lemma obj_extends m m' r : extends m m' -> r < length (facs m) -> obj m' r = obj m r.
Proof. intros (b & l & d & f & ->) H. unfold obj. cbn [facs]. apply app_nth1, H. Qed.
Lemma arr_extends m m' v : extends m m' -> vbuf v < length (bufs m) -> arr_of m' v = arr_of m v.
Proof. intros (b & l & d & f & ->) H. unfold arr_of, buf_of. cbn [bufs]. rewrite app_nth1 by exact H. reflexivity. Qed.
Lemma valid_extends m m' r : extends m m' -> valid m r -> valid m' r.
Proof.
  intros E (A & B & C & D). destruct (extends_len _ _ E) as (L1 & L2 & L3 & L4). unfold valid. rewrite (obj_extends _ _ r E A). lia.
Qed.
Lemma factor_extends m m' r : extends m m' -> valid m r -> factor_of m' r = factor_of m r.
Proof.
  intros E (A & B & C & D). unfold factor_of, pot_of, order_of, vals_of. rewrite (obj_extends _ _ r E A).
  rewrite (arr_extends _ _ _ E B). destruct E as (b & l & d & f & ->). cbn [lists dicts]. rewrite !app_nth1 by assumption. reflexivity.
Qed.
Lemma own_extends m0 m m' r : own m0 m r -> extends m m' -> own m0 m' r.
Proof.
  intros (E & V & A & B & C) E'. split; [eapply extends_trans; eauto|]. split; [eapply valid_extends; eauto|].
  rewrite (obj_extends _ _ r E' (proj1 V)). auto.
Qed.
Lemma fresh_extends m0 m m' r : fresh m0 m r -> extends m m' -> fresh m0 m' r.
Proof. intros [O F] E. split; [eapply own_extends; eauto|]. rewrite (obj_extends _ _ r E); [exact F|apply O]. Qed.
Lemma own_earlier m0 m1 m r : extends m0 m1 -> own m1 m r -> own m0 m r.
Proof.
  intros E (E1 & V & A & B & C). destruct (extends_len _ _ E) as (L1 & L2 & L3 & L4).
  split; [eapply extends_trans; eauto|]. split; [exact V|]. lia.
Qed.
Lemma fresh_earlier m0 m1 m r : extends m0 m1 -> fresh m1 m r -> fresh m0 m r.
Proof. intros E [O F]. split; [eapply own_earlier; eauto|]. pose proof (proj1 (extends_len _ _ E)). lia. Qed.

Lemma list_set_app {A} (a b : list A) i x : length a <= i -> exists b', list_set i x (a ++ b) = a ++ b' /\ length b' = length b.
Proof.
  revert i. induction a as [|y a IH]; intros i H; cbn [app].
  - exists (list_set i x b). split; [reflexivity|]. clear H. revert i. induction b as [|z b IH]; intros [|i]; cbn; auto.
  - destruct i as [|i]; [cbn in H; lia|]. cbn [list_set]. destruct (IH i ltac:(cbn in H; lia)) as (b' & -> & L). exists b'. auto.
Qed.
Lemma length_list_set {A} i (x : A) l : length (list_set i x l) = length l.
Proof. revert i. induction l as [|y l IH]; intros [|i]; cbn; auto. Qed.
Lemma nth_list_set_same {A} i (x d : A) l : i < length l -> nth i (list_set i x l) d = x.
Proof. revert i. induction l as [|y l IH]; intros [|i] H; cbn in *; try lia; auto. apply IH. lia. Qed.
Lemma nth_list_set_other {A} i j (x d : A) l : i <> j -> nth i (list_set j x l) d = nth i l d.
Proof. revert i j. induction l as [|y l IH]; intros [|i] [|j] H; cbn; auto; congruence. Qed.

(** ** Statements *)
Definition wp {A} (c : act A) (m : memory) (Q : memory -> res A -> Prop) : Prop := Q (fst (c m)) (snd (c m)).

Lemma wp_bind {A B} (c : act A) (k : A -> act B) m Q :
  wp c m (fun m' x => match x with Ok a => wp (k a) m' Q | Err e => Q m' (Err e) end) -> wp (bind c k) m Q.
Proof. unfold wp, bind. destruct (c m) as [m' [a|e]]; cbn; auto. Qed.
Lemma wp_look {A} (f : memory -> A) m (Q : memory -> res A -> Prop) : Q m (Ok (f m)) -> wp (look f) m Q.
Proof. auto. Qed.
Lemma wp_done {A} (a : A) m (Q : memory -> res A -> Prop) : Q m (Ok a) -> wp (done a) m Q.
Proof. auto. Qed.
Lemma wp_lift {A} (x : res A) m (Q : memory -> res A -> Prop) : Q m x -> wp (lift x) m Q.
Proof. auto. Qed.
Lemma wp_mono {A} (c : act A) m (Q Q' : memory -> res A -> Prop) : wp c m Q -> (forall m' x, Q m' x -> Q' m' x) -> wp c m Q'.
Proof. unfold wp. auto. Qed.

Lemma wp_array a m (Q : memory -> res aview -> Prop) :
  (forall m' v, extends m m' -> facs m' = facs m -> arr_of m' v = a -> vbuf v < length (bufs m') -> length (bufs m) <= vbuf v -> Q m' (Ok v)) -> wp (new_array a) m Q.
Proof.
  intros H. unfold wp, new_array. cbn [fst snd]. apply H.
  - exists [data a], [], [], []. rewrite !app_nil_r. reflexivity.
  - reflexivity.
  - unfold arr_of, buf_of. cbn [bufs vbuf vshape vpos]. rewrite app_nth2, Nat.sub_diag by lia. cbn [nth]. rewrite map_nth_seq. destruct a; reflexivity.
  - cbn. rewrite app_length. cbn. lia.
  - cbn. lia.
Qed.
Lemma wp_list l m (Q : memory -> res nat -> Prop) :
  (forall m' n, extends m m' -> nth n (lists m') [] = l -> n < length (lists m') -> length (lists m) <= n -> Q m' (Ok n)) -> wp (new_list l) m Q.
Proof.
  intros H. unfold wp, new_list. cbn [fst snd]. apply H.
  - exists [], [l], [], []. rewrite !app_nil_r. reflexivity.
  - cbn. rewrite app_nth2, Nat.sub_diag by lia. reflexivity.
  - cbn. rewrite app_length. cbn. lia.
  - cbn. lia.
Qed.
Lemma wp_dict l m (Q : memory -> res nat -> Prop) :
  (forall m' n, extends m m' -> nth n (dicts m') [] = l -> n < length (dicts m') -> length (dicts m) <= n -> Q m' (Ok n)) -> wp (new_dict l) m Q.
Proof.
  intros H. unfold wp, new_dict. cbn [fst snd]. apply H.
  - exists [], [], [l], []. rewrite !app_nil_r. reflexivity.
  - cbn. rewrite app_nth2, Nat.sub_diag by lia. reflexivity.
  - cbn. rewrite app_length. cbn. lia.
  - cbn. lia.
Qed.
Lemma wp_factor m (Q : memory -> res nat -> Prop) :
  (forall m' r, fresh m m' r -> Q m' (Ok r)) -> wp new_factor m Q.
Proof.
  intros H. unfold wp, new_factor. cbn [fst snd]. apply H.
  set (m' := mkM _ _ _ _). assert (O : obj m' (length (facs m)) = mkO (mkV (length (bufs m)) [0] []) (length (lists m)) (length (dicts m))).
  { unfold obj, m'. cbn [facs]. rewrite app_nth2, Nat.sub_diag by lia. reflexivity. }
  split; [split; [|split]|].
  - exists [[]], [[]], [[]]. eexists. reflexivity.
  - unfold valid. rewrite O. unfold m'. cbn. rewrite !app_length. cbn. lia.
  - rewrite O. cbn. lia.
  - rewrite O. cbn. lia.
Qed.

Lemma wp_set_obj m0 r f m (Q : memory -> res unit -> Prop) : own m0 m r ->
  vbuf (opot (f (obj m r))) < length (bufs m) ->
  length (lists m0) <= oorder (f (obj m r)) < length (lists m) -> length (dicts m0) <= ovals (f (obj m r)) < length (dicts m) ->
  (forall m', own m0 m' r -> bufs m' = bufs m -> lists m' = lists m -> dicts m' = dicts m -> obj m' r = f (obj m r) -> Q m' (Ok tt)) ->
  wp (set_obj r f) m Q.
Proof.
  intros ((b & l & d & fs & ->) & (V1 & V2 & V3 & V4) & O1 & O2 & O3) B L D H. unfold wp, set_obj. cbn [fst snd bufs lists dicts facs] in *.
  set (o := f _) in *. set (m' := mkM _ _ _ (list_set r o (facs m0 ++ fs))).
  assert (X : obj m' r = o). { unfold obj, m'. cbn [facs]. apply nth_list_set_same. exact V1. }
  apply H; try reflexivity; [|exact X]. split; [|split].
  - destruct (list_set_app (facs m0) fs r o O1) as (fs' & E & _). exists b, l, d, fs'. unfold m'. rewrite E. reflexivity.
  - unfold valid. rewrite X. unfold m'. cbn. rewrite length_list_set. lia.
  - rewrite X. lia.
Qed.

Lemma wp_set_pot m0 r v m (Q : memory -> res unit -> Prop) : own m0 m r -> vbuf v < length (bufs m) ->
  (forall m', own m0 m' r -> bufs m' = bufs m -> opot (obj m' r) = v ->
     factor_of m' r = mkF (arr_of m v) (order_of m r) (vals_of m r) -> Q m' (Ok tt)) ->
  wp (set_pot r v) m Q.
Proof.
  intros O B H. assert (O' := O). destruct O' as (_ & (V1 & V2 & V3 & V4) & O1 & O2 & O3). apply (wp_set_obj m0); cbn [opot oorder ovals]; [exact O|lia|lia|lia|].
  intros m' Ow EB EL ED X. apply H; [exact Ow|exact EB|rewrite X; reflexivity|].
  unfold factor_of, pot_of, order_of, vals_of, arr_of, buf_of. rewrite X, EB, EL, ED. reflexivity.
Qed.
Lemma wp_set_order m0 r n m (Q : memory -> res unit -> Prop) : own m0 m r -> length (lists m0) <= n < length (lists m) ->
  (forall m', own m0 m' r -> bufs m' = bufs m -> opot (obj m' r) = opot (obj m r) ->
     factor_of m' r = mkF (pot_of m r) (nth n (lists m) []) (vals_of m r) -> Q m' (Ok tt)) ->
  wp (set_order r n) m Q.
Proof.
  intros O B H. assert (O' := O). destruct O' as (_ & (V1 & V2 & V3 & V4) & O1 & O2 & O3). apply (wp_set_obj m0); cbn [opot oorder ovals]; [exact O|lia|lia|lia|].
  intros m' Ow EB EL ED X. apply H; [exact Ow|exact EB|rewrite X; reflexivity|].
  unfold factor_of, pot_of, order_of, vals_of, arr_of, buf_of. rewrite X, EB, EL, ED. reflexivity.
Qed.
Lemma wp_set_vals m0 r n m (Q : memory -> res unit -> Prop) : own m0 m r -> length (dicts m0) <= n < length (dicts m) ->
  (forall m', own m0 m' r -> bufs m' = bufs m -> opot (obj m' r) = opot (obj m r) ->
     factor_of m' r = mkF (pot_of m r) (order_of m r) (nth n (dicts m) []) -> Q m' (Ok tt)) ->
  wp (set_vals r n) m Q.
Proof.
  intros O B H. assert (O' := O). destruct O' as (_ & (V1 & V2 & V3 & V4) & O1 & O2 & O3). apply (wp_set_obj m0); cbn [opot oorder ovals]; [exact O|lia|lia|lia|].
  intros m' Ow EB EL ED X. apply H; [exact Ow|exact EB|rewrite X; reflexivity|].
  unfold factor_of, pot_of, order_of, vals_of, arr_of, buf_of. rewrite X, EB, EL, ED. reflexivity.
Qed.

Lemma wp_on_order m0 r f m (Q : memory -> res unit -> Prop) : own m0 m r ->
  (forall m', own m0 m' r -> bufs m' = bufs m -> opot (obj m' r) = opot (obj m r) ->
     factor_of m' r = mkF (pot_of m r) (f (order_of m r)) (vals_of m r) -> Q m' (Ok tt)) ->
  wp (on_order r f) m Q.
Proof.
  intros ((b & l & d & fs & ->) & (V1 & V2 & V3 & V4) & O1 & O2 & O3) H. unfold wp, on_order. cbn [fst snd bufs lists dicts facs] in *.
  set (m := mkM _ _ _ (facs m0 ++ fs)) in *. set (m' := mkM _ (list_set _ _ _) _ _).
  assert (X : obj m' r = obj m r) by reflexivity.
  apply H; try reflexivity.
  - split; [|split; [|rewrite X; lia]].
    + destruct (list_set_app (lists m0) l (oorder (obj m r)) (f (order_of m r)) O2) as (l' & E & _). exists b, l', d, fs. unfold m'. rewrite E. reflexivity.
    + unfold valid. rewrite X. unfold m'. cbn [facs bufs lists dicts]. rewrite length_list_set. lia.
  - unfold factor_of, pot_of, order_of, vals_of. rewrite X. f_equal. unfold m'. cbn [lists]. apply nth_list_set_same. exact V3.
Qed.
Lemma wp_on_vals m0 r f m (Q : memory -> res unit -> Prop) : own m0 m r ->
  (forall m', own m0 m' r -> bufs m' = bufs m -> opot (obj m' r) = opot (obj m r) ->
     factor_of m' r = mkF (pot_of m r) (order_of m r) (f (vals_of m r)) -> Q m' (Ok tt)) ->
  wp (on_vals r f) m Q.
Proof.
  intros ((b & l & d & fs & ->) & (V1 & V2 & V3 & V4) & O1 & O2 & O3) H. unfold wp, on_vals. cbn [fst snd bufs lists dicts facs] in *.
  set (m := mkM _ _ _ (facs m0 ++ fs)) in *. set (m' := mkM _ _ (list_set _ _ _) _).
  assert (X : obj m' r = obj m r) by reflexivity.
  apply H; try reflexivity.
  - split; [|split; [|rewrite X; lia]].
    + destruct (list_set_app (dicts m0) d (ovals (obj m r)) (f (vals_of m r)) O3) as (d' & E & _). exists b, l, d', fs. unfold m'. rewrite E. reflexivity.
    + unfold valid. rewrite X. unfold m'. cbn [facs bufs lists dicts]. rewrite length_list_set. lia.
  - unfold factor_of, pot_of, order_of, vals_of. rewrite X. f_equal. unfold m'. cbn [dicts]. apply nth_list_set_same. exact V4.
Qed.

(** ** Operations *)
(** [c] returns a new object that holds [v], or the same exception. *)
Definition makes (c : act nat) (m : memory) (v : res factor) : Prop :=
  wp c m (fun m' x => match v with
    | Ok f => exists r, x = Ok r /\ fresh m m' r /\ factor_of m' r = f
    | Err e => x = Err e /\ extends m m'
    end).

Lemma parts_of m r f : factor_of m r = f -> pot_of m r = pot f /\ order_of m r = vorder f /\ vals_of m r = fvals f.
Proof. intros <-. auto. Qed.

Lemma copy_makes m r : valid m r -> makes (h_copy r) m (Ok (factor_of m r)).
Proof.
  intros V. unfold makes, h_copy. apply wp_bind, wp_factor. intros m1 res F1. assert (E1 := proj1 (proj1 F1)).
  apply wp_bind, wp_look. apply wp_bind, wp_array. intros m2 v E2 _ A2 B2 C2.
  apply wp_bind. apply (wp_set_pot m). { eapply own_extends; [apply F1|exact E2]. } { exact B2. }
  intros m3 O3 B3 P3 G3. assert (E3 := proj1 O3). destruct (parts_of _ _ _ G3) as (X1 & X2 & X3). cbn in X1, X2, X3.
  apply wp_bind, wp_look. apply wp_bind, wp_dict. intros m4 d E4 D4 N4 M4.
  apply wp_bind. apply (wp_set_vals m). { eapply own_extends; eauto. } { pose proof (extends_len _ _ E3). lia. }
  intros m5 O5 B5 P5 G5. assert (E5 := proj1 O5). destruct (parts_of _ _ _ G5) as (Y1 & Y2 & Y3). cbn in Y1, Y2, Y3.
  apply wp_bind, wp_look. apply wp_bind, wp_list. intros m6 l E6 L6 N6 M6.
  apply wp_bind. apply (wp_set_order m). { eapply own_extends; eauto. } { pose proof (extends_len _ _ E5). lia. }
  intros m7 O7 B7 P7 G7. apply wp_done. exists res. split; [reflexivity|].
  assert (Q3 : opot (obj m6 res) = v).
  { rewrite (obj_extends m5 m6) by (auto; apply O5). rewrite P5. rewrite (obj_extends m3 m4) by (auto; apply O3). exact P3. }
  split.
  - split; [exact O7|]. rewrite P7, Q3. pose proof (extends_len _ _ E1). lia.
  - assert (W : forall k, extends m k -> factor_of k r = factor_of m r) by (intros k Ek; apply (factor_extends _ _ _ Ek V)).
    rewrite G7. pose proof (W m1 E1) as W1. pose proof (W m3 E3) as W3. pose proof (W m5 E5) as W5.
    unfold pot_of. rewrite Q3. rewrite L6.
    assert (V6 : vals_of m6 res = vals_of m r).
    { assert (G6 : factor_of m6 res = factor_of m5 res) by (apply factor_extends; [exact E6|apply O5]).
      destruct (parts_of _ _ _ G6) as (_ & _ & ->). cbn [fvals factor_of]. rewrite Y3, D4. apply (f_equal fvals W3). }
    rewrite V6. assert (V6' : order_of m5 r = order_of m r) by exact (f_equal vorder W5). rewrite V6'. unfold factor_of. f_equal.
    assert (Z : arr_of m6 v = arr_of m2 v).
    { unfold arr_of, buf_of. assert (U : vbuf v < length (bufs m3)) by (rewrite B3; exact B2).
      assert (U5 : nth (vbuf v) (bufs m6) [] = nth (vbuf v) (bufs m2) []).
      { transitivity (nth (vbuf v) (bufs m5) []).
        - destruct E6 as (bb & ? & ? & ? & ->). cbn [bufs]. apply app_nth1. rewrite B5. destruct E4 as (? & ? & ? & ? & ->). cbn [bufs]. rewrite app_length. lia.
        - rewrite B5. destruct E4 as (? & ? & ? & ? & ->). cbn [bufs]. rewrite app_nth1 by exact U. rewrite B3. reflexivity. }
      rewrite U5. reflexivity. }
    rewrite Z, A2. exact (f_equal pot W1).
Qed.

Lemma wp_copy m r (Q : memory -> res nat -> Prop) : valid m r ->
  (forall m' r', fresh m m' r' -> factor_of m' r' = factor_of m r -> Q m' (Ok r')) -> wp (h_copy r) m Q.
Proof. intros V H. destruct (copy_makes m r V) as (r' & E & F & G). unfold wp. rewrite E. apply H; assumption. Qed.

Lemma wp_combine_into m0 op r a b m (Q : memory -> res unit -> Prop) : own m0 m r ->
  match zipb op (pot_of m a) (pot_of m b) with
  | Ok p => forall m', own m0 m' r -> length (bufs m) <= vbuf (opot (obj m' r)) ->
              factor_of m' r = mkF p (order_of m r) (vals_of m r) -> Q m' (Ok tt)
  | Err e => Q m (Err e)
  end -> wp (combine_into op r a b) m Q.
Proof.
  intros O H. unfold combine_into. apply wp_bind, wp_look. apply wp_bind, wp_look. apply wp_bind, wp_lift.
  destruct (zipb op (pot_of m a) (pot_of m b)) as [p|e]; [|exact H].
  apply wp_bind, wp_array. intros m1 v E1 F1 A1 B1 C1. apply (wp_set_pot m0); [eapply own_extends; eauto|exact B1|].
  intros m2 O2 B2 P2 G2. apply H; [exact O2|rewrite P2; exact C1|]. rewrite G2, A1.
  pose proof (factor_extends m m1 r E1 (proj1 (proj2 O))) as W. rewrite (f_equal vorder W : order_of m1 r = order_of m r).
  rewrite (f_equal fvals W : vals_of m1 r = vals_of m r). reflexivity.
Qed.

Lemma wp_add_vals m0 r other : valid m0 other -> forall vars m (Q : memory -> res unit -> Prop), own m0 m r ->
  match add_vals vars (vals_of m0 other) (vals_of m r) with
  | Ok d => forall m', own m0 m' r -> bufs m' = bufs m -> opot (obj m' r) = opot (obj m r) ->
              factor_of m' r = mkF (pot_of m r) (order_of m r) d -> Q m' (Ok tt)
  | Err e => forall m', extends m0 m' -> Q m' (Err e)
  end -> wp (h_add_vals r other vars) m Q.
Proof.
  intros V. induction vars as [|v vars IH]; intros m Q O H; cbn [h_add_vals].
  - cbn in H. apply wp_done. apply H; auto.
  - apply wp_bind, wp_look. assert (W := factor_extends m0 m other (proj1 O) V). apply (f_equal fvals) in W. cbn [factor_of fvals] in W. rewrite W.
    unfold add_vals in H. cbn [foldM] in H. apply wp_bind, wp_lift. destruct (dget_err KeyError v (vals_of m0 other)) as [vs|e]; cbn [rbind] in H.
    + apply wp_bind. apply (wp_on_vals m0); [exact O|]. intros m1 O1 B1 P1 G1. destruct (parts_of _ _ _ G1) as (X1 & X2 & X3). cbn in X1, X2, X3.
      apply IH; [exact O1|]. unfold add_vals. rewrite X3. destruct (foldM _ vars _) as [d|e]; [|exact H].
      intros m2 O2 B2 P2 G2. apply H; [exact O2|congruence|congruence|]. rewrite G2, X1, X2. reflexivity.
    + apply H, O.
Qed.

Lemma wp_transpose v perm m (Q : memory -> res aview -> Prop) :
  match transpose (arr_of m v) perm with
  | Ok a => forall v', vbuf v' = vbuf v -> arr_of m v' = a -> Q m (Ok v')
  | Err e => Q m (Err e)
  end -> wp (vtranspose v perm) m Q.
Proof.
  unfold wp, vtranspose, transpose, rank. cbn [shape arr_of]. destruct (is_perm (length (vshape v)) perm); cbn [fst snd]; [|auto].
  intros H. apply H; [reflexivity|]. unfold arr_of, tabulate, buf_of. cbn [vbuf vshape vpos]. f_equal. rewrite map_map. apply map_ext. intros idx.
  unfold aget. cbn [shape data arr_of]. set (g := fun p => nth p (nth (vbuf v) (bufs m) []) 0%Qc).
  assert (G : g (length (nth (vbuf v) (bufs m) [])) = 0%Qc) by (apply nth_overflow; lia).
  rewrite <- G at 2. rewrite map_nth. reflexivity.
Qed.

Lemma combine_makes {SO : SetOrder} op m self other : valid m self -> valid m other ->
  makes (h_combine op false self other) m (fcombine op (factor_of m self) (factor_of m other)).
Proof.
  intros VS VO. unfold makes, h_combine, fcombine. cbn [vorder pot fvals factor_of]. apply wp_bind, wp_look.
  destruct (order_of m self) as [|s0 so] eqn:ES.
  - apply wp_bind. apply (wp_copy m other _ VO). intros m1 r [O1 F1] G1.
    destruct (parts_of _ _ _ G1) as (X1 & X2 & X3). cbn [factor_of pot vorder fvals] in X1, X2, X3.
    assert (WS := factor_extends m m1 self (proj1 O1) VS). apply (f_equal pot) in WS. cbn [factor_of pot] in WS.
    apply wp_bind. apply (wp_combine_into m); [exact O1|]. rewrite WS, X1.
    destruct (zipb op (pot_of m self) (pot_of m other)) as [p|e]; cbn [rbind].
    + intros m2 O2 B2 G2. apply wp_done. exists r. split; [reflexivity|]. rewrite G2, X2, X3. split; [|reflexivity].
      split; [exact O2|]. pose proof (extends_len _ _ (proj1 O1)). lia.
    + split; [reflexivity|apply O1].
  - apply wp_bind, wp_look. destruct (order_of m other) as [|o0 oo] eqn:EO.
    + apply wp_bind. apply (wp_copy m self _ VS). intros m1 r [O1 F1] G1.
      destruct (parts_of _ _ _ G1) as (X1 & X2 & X3). cbn [factor_of pot vorder fvals] in X1, X2, X3.
      assert (WO := factor_extends m m1 other (proj1 O1) VO). apply (f_equal pot) in WO. cbn [factor_of pot] in WO.
      apply wp_bind. apply (wp_combine_into m); [exact O1|]. rewrite WO, X1.
      destruct (zipb op (pot_of m self) (pot_of m other)) as [p|e]; cbn [rbind].
      * intros m2 O2 B2 G2. apply wp_done. exists r. split; [reflexivity|]. rewrite G2, X2, X3, ES. split; [|reflexivity].
        split; [exact O2|]. pose proof (extends_len _ _ (proj1 O1)). lia.
      * split; [reflexivity|apply O1].
    + rewrite <- ES, <- EO. clear s0 so o0 oo ES EO.
      apply wp_bind, wp_factor. intros m1 r F1. apply wp_bind, wp_list. intros m2 l E2 L2 N2 M2.
      apply wp_bind. apply (wp_set_order m); [exact (own_extends _ _ _ _ (proj1 F1) E2)|pose proof (extends_len _ _ (proj1 (proj1 F1))); lia|].
      intros m3 O3 B3 P3 G3. destruct (parts_of _ _ _ G3) as (X1 & X2 & X3). cbn [pot vorder fvals] in X1, X2, X3.
      apply wp_bind, wp_look. apply wp_bind, wp_dict. intros m4 d E4 D4 N4 M4.
      apply wp_bind. apply (wp_set_vals m); [exact (own_extends _ _ _ _ O3 E4)|pose proof (extends_len _ _ (proj1 O3)); lia|].
      intros m5 O5 B5 P5 G5. destruct (parts_of _ _ _ G5) as (Y1 & Y2 & Y3). cbn [pot vorder fvals] in Y1, Y2, Y3.
      assert (Y3' : vals_of m5 r = vals_of m self).
      { rewrite Y3, D4. exact (f_equal fvals (factor_extends m m3 self (proj1 O3) VS)). }
      assert (Y2' : order_of m5 r = order_of m self).
      { rewrite Y2. pose proof (f_equal vorder (factor_extends m3 m4 r E4 (proj1 (proj2 O3)))) as W. cbn [factor_of vorder] in W.
        rewrite W, X2. exact L2. }
      clear X1 X2 X3 Y1 Y2 Y3 G3 G5 P3 P5.
      apply wp_bind, wp_look. rewrite (obj_extends m m5 self (proj1 O5) (proj1 VS)).
      set (extra := sdiff (order_of m other) (order_of m self)).
      apply wp_bind. apply (wp_set_pot m); [exact O5|cbn [vexpand vbuf]; pose proof (extends_len _ _ (proj1 O5)); destruct VS as (_ & VB & _); lia|].
      intros m6 O6 B6 P6 G6. destruct (parts_of _ _ _ G6) as (X1 & X2 & X3). cbn [pot vorder fvals] in X1, X2, X3. rewrite Y2' in X2. rewrite Y3' in X3.
      change (arr_of m5 (vexpand (opot (obj m self)) (length extra))) with (expand (arr_of m5 (opot (obj m self))) (length extra)) in X1.
      rewrite (arr_extends m m5 _ (proj1 O5) (proj1 (proj2 VS))) in X1. fold (pot_of m self) in X1.
      apply wp_bind. apply (wp_on_order m); [exact O6|]. intros m7 O7 B7 P7 G7. rewrite X1, X2, X3 in G7. clear G6 X1 X2 X3 Y2' Y3'.
      destruct (parts_of _ _ _ G7) as (X1 & X2 & X3). cbn [pot vorder fvals] in X1, X2, X3. clear G7.
      apply wp_bind. apply (wp_add_vals m); [exact VO|exact O7|]. rewrite X3.
      destruct (add_vals extra (vals_of m other) (vals_of m self)) as [rv|e]; cbn [rbind]; [|intros m8 E8; split; [reflexivity|exact E8]].
      intros m8 O8 B8 P8 G8. rewrite X1, X2 in G8. destruct (parts_of _ _ _ G8) as (Y1 & Y2 & Y3). cbn [pot vorder fvals] in Y1, Y2, Y3. clear X1 X2 X3.
      (* f2 *)
      assert (VO8 := valid_extends _ _ _ (proj1 O8) VO). assert (WO8 := factor_extends _ _ _ (proj1 O8) VO).
      apply wp_bind. apply (wp_copy m8 other _ VO8). intros m9 f2 [O9 F9] G9. rewrite WO8 in G9.
      destruct (parts_of _ _ _ G9) as (X1 & X2 & X3). cbn [factor_of pot vorder fvals] in X1, X2, X3.
      assert (V8 : valid m8 r) by apply O8.
      apply wp_bind, wp_look. assert (R9 : order_of m9 r = order_of m self ++ extra).
      { transitivity (order_of m8 r); [exact (f_equal vorder (factor_extends m8 m9 r (proj1 O9) V8))|exact Y2]. }
      rewrite R9. apply wp_bind, wp_look. rewrite X2. set (extra2 := sdiff (order_of m self ++ extra) (order_of m other)).
      apply wp_bind, wp_look. apply wp_bind. apply (wp_set_pot m8); [exact O9|cbn [vexpand vbuf]; apply O9|].
      intros m10 O10 B10 P10 G10. rewrite X2, X3 in G10.
      change (arr_of m9 (vexpand (opot (obj m9 f2)) (length extra2))) with (expand (pot_of m9 f2) (length extra2)) in G10. rewrite X1 in G10.
      destruct (parts_of _ _ _ G10) as (Z1 & Z2 & Z3). cbn [pot vorder fvals] in Z1, Z2, Z3. clear X1 X2 X3 G9 G10.
      apply wp_bind. apply (wp_on_order m8); [exact O10|]. intros m11 O11 B11 P11 G11. rewrite Z1, Z2, Z3 in G11.
      destruct (parts_of _ _ _ G11) as (X1 & X2 & X3). cbn [pot vorder fvals] in X1, X2, X3. clear Z1 Z2 Z3 G11.
      apply wp_bind, wp_look. rewrite X2. apply wp_bind, wp_lift.
      destruct (mapM (fun v => py_index v (order_of m other ++ extra2)) (order_of m self ++ extra)) as [swap|e]; cbn [rbind].
      2: { split; [reflexivity|]. eapply extends_trans; [apply O8|apply O11]. }
      apply wp_bind, wp_look. apply wp_bind, wp_transpose. fold (pot_of m11 f2). rewrite X1.
      destruct (transpose (expand (pot_of m other) (length extra2)) swap) as [p2|e]; cbn [rbind].
      2: { split; [reflexivity|]. eapply extends_trans; [apply O8|apply O11]. }
      intros v4 B4 A4. apply wp_bind. apply (wp_set_pot m8); [exact O11|rewrite B4; apply O11|].
      intros m12 O12 B12 P12 G12. rewrite A4 in G12. destruct (parts_of _ _ _ G12) as (Z1 & _ & _). cbn [pot] in Z1. clear X1 X2 X3 G12.
      pose proof (own_extends _ _ _ _ O8 (proj1 O12)) as OR. pose proof (factor_extends m8 m12 r (proj1 O12) V8) as WR. rewrite G8 in WR.
      destruct (parts_of _ _ _ WR) as (X1 & X2 & X3). cbn [pot vorder fvals] in X1, X2, X3.
      apply wp_bind. apply (wp_combine_into m); [exact OR|]. rewrite X1, Z1.
      destruct (zipb op (expand (pot_of m self) (length extra)) p2) as [p|e]; cbn [rbind].
      * intros m13 O13 B13 G13. apply wp_done. exists r. split; [reflexivity|]. rewrite G13, X2, X3. split; [|reflexivity].
        split; [exact O13|]. pose proof (extends_len _ _ (proj1 OR)). lia.
      * split; [reflexivity|apply OR].
Qed.

(** ** Writing to an array *)
Definition written (v : aview) (f : Qc -> Qc) (m : memory) : memory := fst (in_place v f m).
Lemma written_same v f m : lists (written v f m) = lists m /\ dicts (written v f m) = dicts m /\ facs (written v f m) = facs m /\
  length (bufs (written v f m)) = length (bufs m).
Proof. unfold written, in_place. cbn. rewrite length_list_set. auto. Qed.
Lemma written_here v f m : f 0%Qc = 0%Qc -> vbuf v < length (bufs m) -> arr_of (written v f m) v = amap f (arr_of m v).
Proof.
  intros Z B. unfold written, in_place, arr_of, amap, buf_of. cbn [fst bufs shape data vbuf]. rewrite nth_list_set_same by exact B. f_equal. rewrite map_map.
  apply map_ext_in. intros p Hp. set (b := nth (vbuf v) (bufs m) []). destruct (Nat.lt_ge_cases p (length b)) as [L|L].
  - set (g := fun p => if existsb (Nat.eqb p) (vpos v) then f (nth p b 0%Qc) else nth p b 0%Qc).
    rewrite (nth_indep _ 0%Qc (g 0)) by (rewrite map_length, seq_length; exact L). rewrite map_nth, seq_nth by exact L. cbn [Nat.add]. unfold g.
    assert (X : existsb (Nat.eqb p) (vpos v) = true) by (apply existsb_exists; exists p; split; [exact Hp|apply Nat.eqb_refl]). rewrite X. reflexivity.
  - rewrite !nth_overflow by (rewrite ?map_length, ?seq_length; exact L). symmetry. exact Z.
Qed.
Lemma written_other v f m w : vbuf w <> vbuf v -> arr_of (written v f m) w = arr_of m w.
Proof. intros N. unfold written, in_place, arr_of, buf_of. cbn [fst bufs]. rewrite nth_list_set_other by exact N. reflexivity. Qed.
Lemma written_obj v f m r : obj (written v f m) r = obj m r.
Proof. reflexivity. Qed.
Lemma written_valid v f m r : valid m r -> valid (written v f m) r.
Proof. unfold valid. rewrite written_obj. destruct (written_same v f m) as (-> & -> & -> & ->). auto. Qed.

Lemma written_own m0 m r f : fresh m0 m r -> fresh m0 (written (opot (obj m r)) f m) r.
Proof.
  intros [((b & l & d & fs & ->) & V & O) F]. split; [|exact F]. split; [|split; [apply written_valid; exact V|exact O]].
  unfold written, in_place. cbn [fst bufs lists dicts facs]. destruct (list_set_app (bufs m0) b _
    (map (fun p => if existsb (Nat.eqb p) (vpos (opot (obj (mkM (bufs m0 ++ b) (lists m0 ++ l) (dicts m0 ++ d) (facs m0 ++ fs)) r)))
       then f (nth p (buf_of (mkM (bufs m0 ++ b) (lists m0 ++ l) (dicts m0 ++ d) (facs m0 ++ fs)) (opot (obj (mkM (bufs m0 ++ b) (lists m0 ++ l) (dicts m0 ++ d) (facs m0 ++ fs)) r))) 0%Qc)
       else nth p (buf_of (mkM (bufs m0 ++ b) (lists m0 ++ l) (dicts m0 ++ d) (facs m0 ++ fs)) (opot (obj (mkM (bufs m0 ++ b) (lists m0 ++ l) (dicts m0 ++ d) (facs m0 ++ fs)) r))) 0%Qc)
       (seq 0 (length (buf_of (mkM (bufs m0 ++ b) (lists m0 ++ l) (dicts m0 ++ d) (facs m0 ++ fs)) (opot (obj (mkM (bufs m0 ++ b) (lists m0 ++ l) (dicts m0 ++ d) (facs m0 ++ fs)) r)))))) F) as (b' & E & _).
  exists b', l, d, fs. rewrite E. reflexivity.
Qed.

Lemma qeqb_zero_inv x : (if qeqb (/ x) 0 then 0 else / x)%Qc = (if qeqb x 0 then 0 else / x)%Qc.
Proof.
  unfold qeqb. destruct (Qc_eq_bool (/ x) 0) eqn:E; destruct (Qc_eq_bool x 0) eqn:E'; auto.
  - apply Qc_eq_bool_correct in E. symmetry. exact E.
  - apply Qc_eq_bool_correct in E'. subst x. reflexivity.
Qed.

Lemma invert_makes m r : valid m r -> makes (h_invert r) m (finvert (factor_of m r)).
Proof.
  intros V. unfold makes, h_invert, finvert. cbn [vorder pot fvals factor_of]. apply wp_bind, (wp_copy m r _ V). intros m1 r1 [O1 F1] G1.
  destruct (parts_of _ _ _ G1) as (X1 & X2 & X3). cbn [factor_of pot vorder fvals] in X1, X2, X3.
  apply wp_bind, wp_look. apply wp_bind, wp_look. rewrite X1, X2. pose proof (extends_len _ _ (proj1 O1)) as LE.
  destruct (order_of m r) as [|v0 l] eqn:EO.
  - destruct (existsb _ _); [apply wp_lift; split; [reflexivity|apply O1]|].
    apply wp_bind, wp_array. intros m2 v E2 _ A2 B2 C2. apply wp_bind. apply (wp_set_pot m); [exact (own_extends _ _ _ _ O1 E2)|exact B2|].
    intros m3 O3 B3 P3 G3. apply wp_done. exists r1. split; [reflexivity|]. split; [split; [exact O3|rewrite P3; lia]|].
    rewrite G3, A2. pose proof (factor_extends m1 m2 r1 E2 (proj1 (proj2 O1))) as W. rewrite G1 in W. destruct (parts_of _ _ _ W) as (_ & Y2 & Y3).
    cbn [factor_of vorder fvals] in Y2, Y3. rewrite Y2, Y3, EO. reflexivity.
  - apply wp_bind, wp_array. intros m2 v E2 _ A2 B2 C2. apply wp_bind. apply (wp_set_pot m); [exact (own_extends _ _ _ _ O1 E2)|exact B2|].
    intros m3 O3 B3 P3 G3. pose proof (factor_extends m1 m2 r1 E2 (proj1 (proj2 O1))) as W. rewrite G1 in W. destruct (parts_of _ _ _ W) as (_ & Y2 & Y3).
    cbn [factor_of vorder fvals] in Y2, Y3. rewrite A2, Y2, Y3 in G3.
    assert (FR : fresh m m3 r1) by (split; [exact O3|rewrite P3; lia]).
    apply wp_bind. set (f := fun x : Qc => if qeqb x 0 then 0%Qc else x). unfold wp. change (fst (in_place v f m3)) with (written v f m3). cbn [snd in_place].
    apply wp_done. exists r1. split; [reflexivity|]. split; [rewrite <- P3; apply written_own, FR|].
    destruct (parts_of _ _ _ G3) as (Z1 & Z2 & Z3). cbn [pot vorder fvals] in Z1, Z2, Z3. destruct (written_same v f m3) as (L1 & L2 & L3 & L4).
    unfold factor_of, order_of, vals_of, pot_of. rewrite !written_obj, L1, L2, P3. fold (order_of m3 r1) (vals_of m3 r1). rewrite Z2, Z3, EO.
    rewrite written_here; [|unfold f; destruct (qeqb 0 0); reflexivity|rewrite B3; exact B2].
    unfold pot_of in Z1. rewrite P3 in Z1. rewrite Z1. f_equal. unfold amap. cbn [shape data]. f_equal. rewrite map_map. apply map_ext. intros x. apply qeqb_zero_inv.
Qed.

Lemma makes_then (c : act nat) (k : nat -> act nat) m (x : res factor) (y : factor -> res factor) : makes c m x ->
  (forall m1 r f, x = Ok f -> fresh m m1 r -> factor_of m1 r = f -> makes (k r) m1 (y f)) ->
  makes (do r <- c; k r) m (let* f := x in y f).
Proof.
  unfold makes. intros H K. apply wp_bind. destruct x as [f|e]; cbn [rbind].
  - destruct H as (r & E & F & G). unfold wp. rewrite E. specialize (K _ r f eq_refl F G). eapply wp_mono; [exact K|].
    intros m' z. destruct (y f) as [g|e].
    + intros (r' & -> & F' & G'). exists r'. split; [reflexivity|]. split; [|exact G']. eapply fresh_earlier; [apply (proj1 F)|exact F'].
    + intros [-> E']. split; [reflexivity|]. eapply extends_trans; [apply (proj1 F)|exact E'].
  - destruct H as [E X]. unfold wp. rewrite E. auto.
Qed.

Lemma div_makes {SO : SetOrder} m a b : valid m a -> valid m b -> makes (h_div a b) m (fdiv (factor_of m a) (factor_of m b)).
Proof.
  intros VA VB. unfold h_div, fdiv. cbn [fvals factor_of]. unfold makes. apply wp_bind, wp_look. apply wp_bind, wp_look.
  destruct (subset (dkeys (vals_of m b)) (dkeys (vals_of m a))); [|apply wp_lift; split; [reflexivity|apply extends_refl]].
  apply (makes_then (h_invert b) (h_combine Qcmult false a) m (finvert (factor_of m b)) (fmul (factor_of m a))).
  - apply invert_makes, VB.
  - intros m1 r f _ [O F] G. rewrite <- G, <- (factor_extends m m1 a (proj1 O) VA). apply combine_makes; [|apply O].
    eapply valid_extends; [apply O|exact VA].
Qed.

Lemma wp_sum_out m0 r : forall vs m (Q : memory -> res unit -> Prop), fresh m0 m r ->
  match marginalize (factor_of m r) vs with
  | Ok f => forall m', fresh m0 m' r -> factor_of m' r = f -> Q m' (Ok tt)
  | Err e => forall m', extends m0 m' -> Q m' (Err e)
  end -> wp (h_sum_out r vs) m Q.
Proof.
  induction vs as [|v vs IH]; intros m Q F H; cbn [h_sum_out].
  - apply wp_done. apply H; auto.
  - unfold marginalize in H. cbn [foldM] in H. unfold marginalize1 in H at 1. cbn [vorder fvals pot factor_of] in H.
    apply wp_bind, wp_look. apply wp_bind, wp_lift. destruct (py_index v (order_of m r)) as [k|e]; cbn [rbind] in H; [|apply H, F].
    apply wp_bind, wp_look. apply wp_bind, wp_array. intros m1 p E1 _ A1 B1 C1. assert (F1 := fresh_extends _ _ _ _ F E1).
    apply wp_bind. apply (wp_set_pot m0); [apply F1|exact B1|]. intros m2 O2 B2 P2 G2. rewrite A1 in G2.
    pose proof (factor_extends m m1 r E1 (proj1 (proj2 (proj1 F)))) as W. destruct (parts_of _ _ _ W) as (_ & W2 & W3). cbn [factor_of vorder fvals] in W2, W3.
    rewrite W2, W3 in G2. destruct (parts_of _ _ _ G2) as (X1 & X2 & X3). cbn [pot vorder fvals] in X1, X2, X3.
    apply wp_bind, wp_look. rewrite X3. destruct (dmem v (vals_of m r)); [|apply wp_lift, H, O2]. cbn [rbind] in H.
    apply wp_bind. apply (wp_on_vals m0); [exact O2|]. intros m3 O3 B3 P3 G3. rewrite X1, X2, X3 in G3.
    destruct (parts_of _ _ _ G3) as (Y1 & Y2 & Y3). cbn [pot vorder fvals] in Y1, Y2, Y3.
    apply wp_bind. apply (wp_on_order m0); [exact O3|]. intros m4 O4 B4 P4 G4. rewrite Y1, Y2, Y3 in G4.
    apply IH.
    + split; [exact O4|]. rewrite P4, P3, P2. pose proof (extends_len _ _ (proj1 (proj1 F))). lia.
    + rewrite G4. exact H.
Qed.

Lemma marginalize_makes m r vs : valid m r -> makes (h_marginalize r vs) m (marginalize (factor_of m r) vs).
Proof.
  intros V. unfold makes, h_marginalize. apply wp_bind, (wp_copy m r _ V). intros m1 r1 F1 G1.
  apply wp_bind. apply (wp_sum_out m); [exact F1|]. rewrite G1. destruct (marginalize (factor_of m r) vs) as [f|e].
  - intros m2 F2 G2. apply wp_done. exists r1. auto.
  - intros m2 E2. auto.
Qed.

Lemma make_makes m f : makes (h_make f) m (Ok f).
Proof.
  unfold makes, h_make. apply wp_bind, wp_factor. intros m1 r [O1 F1].
  apply wp_bind. apply (wp_on_order m); [exact O1|]. intros m2 O2 B2 P2 G2. destruct (parts_of _ _ _ G2) as (X1 & X2 & X3). cbn [pot vorder fvals] in X1, X2, X3.
  apply wp_bind. apply (wp_on_vals m); [exact O2|]. intros m3 O3 B3 P3 G3. rewrite X2 in G3.
  apply wp_bind, wp_array. intros m4 v E4 _ A4 B4 C4. apply wp_bind. apply (wp_set_pot m); [exact (own_extends _ _ _ _ O3 E4)|exact B4|].
  intros m5 O5 B5 P5 G5. apply wp_done. exists r. split; [reflexivity|]. split.
  - split; [exact O5|]. rewrite P5. pose proof (extends_len _ _ (proj1 O3)). lia.
  - rewrite G5, A4. pose proof (factor_extends m3 m4 r E4 (proj1 (proj2 O3))) as W. rewrite G3 in W. destruct (parts_of _ _ _ W) as (_ & W2 & W3).
    cbn [vorder fvals] in W2, W3. rewrite W2, W3. destruct f; reflexivity.
Qed.

(** ** Programs *)
(** The factors of a program share no array, list or dict. *)
Definition live (m : memory) (env : list nat) : Prop :=
  Forall (valid m) env /\ NoDup env /\ NoDup (map (fun r => vbuf (opot (obj m r))) env) /\
  NoDup (map (fun r => oorder (obj m r)) env) /\ NoDup (map (fun r => ovals (obj m r)) env).

Lemma nodup_snoc {A} (l : list A) x : NoDup l -> ~ In x l -> NoDup (l ++ [x]).
Proof. intros N H. apply (Permutation_NoDup (l := x :: l)); [apply Permutation_cons_append|constructor; assumption]. Qed.

Lemma live_extends m m' env : extends m m' -> live m env -> live m' env /\ map (factor_of m') env = map (factor_of m) env.
Proof.
  intros E (V & N1 & N2 & N3 & N4). rewrite Forall_forall in V.
  assert (O : forall r, In r env -> obj m' r = obj m r) by (intros r H; apply obj_extends; [exact E|apply (V r H)]).
  split; [|apply map_ext_in; intros r H; apply factor_extends; auto]. split; [apply Forall_forall; intros r H; eapply valid_extends; eauto|].
  split; [exact N1|].
  split; [|split].
  - erewrite map_ext_in; [exact N2|]. intros r H. cbv beta. rewrite (O r H). reflexivity.
  - erewrite map_ext_in; [exact N3|]. intros r H. cbv beta. rewrite (O r H). reflexivity.
  - erewrite map_ext_in; [exact N4|]. intros r H. cbv beta. rewrite (O r H). reflexivity.
Qed.

Lemma live_fresh m m' env r : live m env -> fresh m m' r -> live m' (env ++ [r]).
Proof.
  intros L [O F]. destruct (live_extends m m' env (proj1 O) L) as [(V & N1 & N2 & N3 & N4) _]. destruct L as (V0 & _). rewrite Forall_forall in V0.
  assert (X : forall s, In s env -> obj m' s = obj m s) by (intros s H; apply obj_extends; [apply O|apply (V0 s H)]).
  destruct O as (E & VR & O1 & O2 & O3). unfold live. rewrite !map_app. cbn [map].
  split; [apply Forall_app; split; [exact V|constructor; [exact VR|constructor]]|].
  assert (B : forall s, In s env -> s < length (facs m) /\ vbuf (opot (obj m' s)) < length (bufs m) /\ oorder (obj m' s) < length (lists m) /\ ovals (obj m' s) < length (dicts m)).
  { intros s H. rewrite (X s H). apply (V0 s H). }
  split; [|split; [|split]]; (apply nodup_snoc; [assumption|]); [|intros H; apply in_map_iff in H; destruct H as (s & Es & H); specialize (B s H); lia..].
  intros H. specialize (B r H). lia.
Qed.

Lemma nth_map_env m env i : i < length env -> nth i (map (factor_of m) env) (trivial 1) = factor_of m (nth i env 0).
Proof. intros H. rewrite (nth_indep _ (trivial 1) (factor_of m 0)) by (rewrite map_length; exact H). apply map_nth. Qed.

Lemma NoDup_map_same {A B} (f : A -> B) l x y : NoDup (map f l) -> In x l -> In y l -> f x = f y -> x = y.
Proof.
  induction l as [|z l IH]; intros N Hx Hy E; [contradiction|]. cbn [map] in N. inversion N as [|? ? N1 N2]; subst.
  destruct Hx as [->|Hx], Hy as [->|Hy]; [reflexivity| | |apply IH; assumption].
  - destruct N1. rewrite E. apply in_map, Hy.
  - destruct N1. rewrite <- E. apply in_map, Hx.
Qed.

Lemma normalize_step m env i : live m env -> i < length env ->
  exists m', h_normalize (nth i env 0) m = (m', Ok tt) /\ live m' env /\
    map (factor_of m') env = list_set i (normalize (factor_of m (nth i env 0))) (map (factor_of m) env).
Proof.
  intros L Hi. set (r := nth i env 0). assert (Hr : In r env) by (apply nth_In, Hi).
  assert (same : forall f, f = factor_of m r -> map (factor_of m) env = list_set i f (map (factor_of m) env)).
  { intros f ->. clear L Hr. unfold r. clear r. revert i Hi. induction env as [|x env IH]; intros [|i] Hi; cbn in *; auto; try lia. f_equal. apply IH. lia. }
  unfold h_normalize, normalize, bind, look, done. cbn [pot factor_of]. set (a := pot_of m r). destruct (qltb 0 (asum a)).
  - set (f := fun x : Qc => (x / asum a)%Qc). set (v := opot (obj m r)).
    exists (written v f m). split; [reflexivity|]. destruct L as (V & N1 & N2 & N3 & N4). destruct (written_same v f m) as (L1 & L2 & L3 & L4).
    split; [split; [eapply Forall_impl; [|exact V]; intros s; apply written_valid|auto]|].
    rewrite Forall_forall in V.
    assert (G : forall s, In s env -> s <> r -> factor_of (written v f m) s = factor_of m s).
    { intros s Hs Ns. unfold factor_of, pot_of, order_of, vals_of. rewrite !written_obj, L1, L2. f_equal. apply written_other. unfold v.
      intros EB. apply Ns. exact (NoDup_map_same _ env s r N2 Hs Hr EB). }
    assert (GR : factor_of (written v f m) r = mkF (amap f a) (order_of m r) (vals_of m r)).
    { unfold factor_of, pot_of, order_of, vals_of. rewrite !written_obj, L1, L2. f_equal. apply written_here; [|apply (V r Hr)].
      unfold f, Qcdiv. apply Qcmult_0_l. }
    change (map (factor_of (written v f m)) env = list_set i (mkF (amap f a) (order_of m r) (vals_of m r)) (map (factor_of m) env)).
    rewrite <- GR. clear GR L1 L2 L3 L4. generalize dependent (written v f m). intros m2 G. clear f v a same. unfold r in *. clear r. clear -N1 G Hi Hr. revert i Hi Hr G. induction env as [|x env IH]; intros i Hi Hr G; [contradiction|].
    inversion N1 as [|? ? N N']; subst. destruct i as [|i]; cbn [nth list_set map] in *.
    + f_equal. apply map_ext_in. intros s Hs. apply G; [right; exact Hs|]. intros ->. contradiction.
    + assert (Hi' : i < length env) by (cbn in Hi; lia). f_equal; [apply G; [left; reflexivity|]; intros ->; apply N, nth_In, Hi'|].
      apply IH; [exact N'|exact Hi'|apply nth_In, Hi'|]. intros s Hs. apply G. right. exact Hs.
  - exists m. split; [reflexivity|]. split; [exact L|]. apply same. destruct (factor_of m r); reflexivity.
Qed.

Theorem call_refines {SO : SetOrder} c env m : live m env -> bound_in (length env) c ->
  match after_call c (map (factor_of m) env) with
  | Ok fs => exists m' env', call_h c env m = (m', Ok env') /\ live m' env' /\ map (factor_of m') env' = fs
  | Err e => exists m', call_h c env m = (m', Err e) /\ live m' env /\ map (factor_of m') env = map (factor_of m) env
  end.
Proof.
  intros L A. assert (V : forall i, i < length env -> valid m (nth i env 0)).
  { intros i H. destruct L as (X & _). rewrite Forall_forall in X. apply X, nth_In, H. }
  assert (make : forall h x, makes h m x ->
    match (let* f := x in Ok (map (factor_of m) env ++ [f])) with
    | Ok fs => exists m' env', bind h (fun r => done (env ++ [r])) m = (m', Ok env') /\ live m' env' /\ map (factor_of m') env' = fs
    | Err e => exists m', bind h (fun r => done (env ++ [r])) m = (m', Err e) /\ live m' env /\ map (factor_of m') env = map (factor_of m) env
    end).
  { intros h x M. unfold makes, wp in M. unfold bind, done. destruct (h m) as [m' z]. cbn [fst snd] in M. destruct x as [f|e]; cbn [rbind].
    - destruct M as (r & -> & F & G). exists m', (env ++ [r]). split; [reflexivity|]. split; [eapply live_fresh; eauto|].
      rewrite map_app. cbn [map]. rewrite G. f_equal. apply live_extends; [apply F|exact L].
    - destruct M as [-> E]. exists m'. split; [reflexivity|]. apply live_extends; auto. }
  unfold bound_in in A. unfold after_call. destruct c; cbn [args value_of call_h] in *; repeat rewrite Forall_cons_iff in A;
    rewrite ?nth_map_env by tauto; try (apply make).
  - apply make_makes.
  - apply copy_makes, V. tauto.
  - apply combine_makes; apply V; tauto.
  - apply combine_makes; apply V; tauto.
  - apply div_makes; apply V; tauto.
  - apply invert_makes, V. tauto.
  - apply marginalize_makes, V. tauto.
  - cbn [rbind]. destruct (normalize_step m env i L (proj1 A)) as (m' & E & L' & G). exists m', env. unfold bind at 1. rewrite E. auto.
Qed.

Theorem run_refines {SO : SetOrder} cs : forall env m, live m env -> well_bound cs (map (factor_of m) env) ->
  match run_heap cs env m with
  | (m', env', os) => live m' env' /\ run_values cs (map (factor_of m) env) = (map (factor_of m') env', os)
  end.
Proof.
  induction cs as [|c cs IH]; intros env m L W; cbn [run_heap run_values]; [auto|].
  cbn [well_bound] in W. destruct W as [B W]. rewrite map_length in B. pose proof (call_refines c env m L B) as R.
  destruct (after_call c (map (factor_of m) env)) as [fs|e].
  - destruct R as (m' & env' & -> & L' & G). cbn [outcome]. subst fs. specialize (IH env' m' L' W). destruct (run_heap cs env' m') as [[m'' env''] os].
    destruct IH as [L'' E]. rewrite E. auto.
  - destruct R as (m' & -> & L' & G). cbn [outcome]. rewrite <- G in W |- *. specialize (IH env m' L' W). destruct (run_heap cs env m') as [[m'' env''] os].
    destruct IH as [L'' E]. rewrite E. auto.
Qed.

Lemma get_potential_fresh m r vars : valid m r -> vars <> [] ->
  match get_potential (factor_of m r) vars with
  | Ok a => exists m' v, h_get_potential r vars m = (m', Ok v) /\ extends m m' /\ length (bufs m) <= vbuf v /\ arr_of m' v = a
  | Err e => h_get_potential r vars m = (m, Err e)
  end.
Proof.
  intros V N. unfold h_get_potential, bind, look, lift. destruct (get_potential (factor_of m r) vars) as [a|e]; [|reflexivity].
  destruct vars as [|x vars]; [contradiction|].
  assert (W : wp (new_array a) m (fun m' z => exists v, z = Ok v /\ extends m m' /\ length (bufs m) <= vbuf v /\ arr_of m' v = a)).
  { apply wp_array. intros m' v E _ A B C. exists v. auto. }
  unfold wp in W. destruct (new_array a m) as [m' z]. cbn in W. destruct W as (v & -> & E & B & A). exists m', v. auto.
Qed.
