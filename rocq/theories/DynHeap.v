(** How copying and feeding back change the networks that inference reads. *)
From Verif Require Import Base BaseFacts NDArray Factor Exact Spec SpecFacts Order JoinTree Node Network NetSpec NetFacts NetView TreeSpec DynSpec Dynamic DynPure.

(** Every name leads to an object of that name. *)
Definition named (h : heap) (g : net) : Prop :=
  NoDup (dkeys (lookup g)) /\ forall v i, dget v (lookup g) = Some i -> exists n, nth_error h i = Some n /\ nname n = v.

Lemma consistent_named h g : consistent (mkW h g) -> named h g.
Proof. intros C. split; [apply C|]. intros v i D. exact (co_named _ C v i D). Qed.

Lemma dget_shift k d v : dget v (shift_dict k d) = option_map (fun i => i + k) (dget v d).
Proof. induction d as [|(u & i) d IH]; [reflexivity|]. cbn. destruct (String.eqb v u); [reflexivity|exact IH]. Qed.
Lemma dkeys_shift k d : dkeys (shift_dict k d) = dkeys d.
Proof. unfold dkeys, shift_dict. rewrite map_map. reflexivity. Qed.

Definition copied (h : heap) : heap := h ++ map (shift_node (length h)) h.

Lemma nth_copied h i : nth_error (copied h) (i + length h) = option_map (shift_node (length h)) (nth_error h i).
Proof.
  unfold copied. rewrite nth_error_app2 by lia. replace (i + length h - length h) with i by lia. apply nth_error_map.
Qed.

Lemma snapshot_copied h n : snapshot_node (copied h) (shift_node (length h) n) = snapshot_node h n.
Proof.
  unfold snapshot_node, shift_node. cbn [with_parents nname nvalues nparents nporder ncpd]. rewrite dkeys_shift. f_equal. apply map_ext. intros p. f_equal.
  unfold parent_values. cbn [with_parents nparents]. unfold dget_err. rewrite dget_shift. destruct (dget p (nparents n)) as [i|]; [|reflexivity]. cbn.
  unfold hget. rewrite nth_copied. destruct (nth_error h i) as [m|]; reflexivity.
Qed.

Lemma view_copied h g : view (mkW (copied h) (shift_net (length h) g)) = view (mkW h g).
Proof.
  unfold view. cbn [whp wnet shift_net lookup ggraph gedges]. rewrite dkeys_shift. f_equal. unfold shift_dict. rewrite map_map. apply map_ext. intros (v & i). cbn.
  unfold deref. destruct (nth_error h i) as [n|] eqn:E.
  - rewrite (nth_error_nth h i _ E). rewrite (nth_error_nth _ _ _ (eq_trans (nth_copied h i) (f_equal _ E))). apply snapshot_copied.
  - apply nth_error_None in E. rewrite (nth_overflow h) by exact E. rewrite (nth_overflow (copied h)) by (unfold copied; rewrite app_length, map_length; lia). reflexivity.
Qed.

Lemma named_copied h g : named h g -> named (copied h) (shift_net (length h) g).
Proof.
  intros [ND H]. split; cbn [shift_net lookup]; [rewrite dkeys_shift; exact ND|]. intros v i. rewrite dget_shift. destruct (dget v (lookup g)) as [j|] eqn:D; [|discriminate].
  intros E. injection E as <-. destruct (H v j D) as (n & Hn & En). exists (shift_node (length h) n). rewrite nth_copied, Hn. auto.
Qed.

(** Writing a table. *)
Definition tabled (n : node) (a : ndarray) : node := with_cpd n (TArr false a) true.

Lemma parent_values_set h i n a m p : nth_error h i = Some n -> parent_values (list_set i (tabled n a) h) m p = parent_values h m p.
Proof.
  intros H. unfold parent_values. destruct (dget_err KeyError p (nparents m)) as [o|]; [|reflexivity]. cbn. unfold hget. rewrite nth_error_list_set.
  destruct (Nat.eq_dec o i) as [->|]; [|reflexivity]. rewrite H. reflexivity.
Qed.

Lemma deref_set h i n a j : nth_error h i = Some n -> deref (list_set i (tabled n a) h) j = if Nat.eq_dec j i then tabled n a else deref h j.
Proof.
  intros H. unfold deref. destruct (nth_error (list_set i (tabled n a) h) j) as [m|] eqn:E.
  - rewrite (nth_error_nth _ _ _ E). rewrite nth_error_list_set in E. destruct (Nat.eq_dec j i) as [->|]; [rewrite H in E; congruence|].
    symmetry. apply nth_error_nth, E.
  - assert (E' := E). rewrite nth_error_list_set in E. destruct (Nat.eq_dec j i) as [->|]; [rewrite H in E; discriminate|].
    apply nth_error_None in E, E'. rewrite !nth_overflow by assumption. reflexivity.
Qed.

Lemma view_set h g v i n a : named h g -> dget v (lookup g) = Some i -> nth_error h i = Some n ->
  view (mkW (list_set i (tabled n a) h) g) = fed (view (mkW h g)) [(v, a)].
Proof.
  intros [ND N] D H. unfold view, fed. cbn [whp wnet bnodes border bedges]. f_equal. rewrite map_map. apply map_ext_in. intros (u & j) I. cbn [snd].
  apply In_dget in I; [|exact ND]. destruct (N u j I) as (m & Hm & Em). destruct (N v i D) as (n' & Hn' & En). rewrite H in Hn'. injection Hn' as <-.
  rewrite (deref_set h i n a j H). rewrite (deref_ok h j m Hm).
  assert (S : forall x, snapshot_node (list_set i (tabled n a) h) x = snapshot_node h x).
  { intros x. unfold snapshot_node. f_equal. apply map_ext. intros p. rewrite (parent_values_set h i n a x p H). reflexivity. }
  unfold fed1. cbn [snapshot_node dn_name dget]. rewrite Em. destruct (Nat.eq_dec j i) as [->|Nj].
  - rewrite H in Hm. injection Hm as <-. rewrite <- Em, En, String.eqb_refl, S. reflexivity.
  - rewrite eqb_neq_s; [apply S|]. intros ->. congruence.
Qed.

Lemma named_set h g i n a : nth_error h i = Some n -> named h g -> named (list_set i (tabled n a) h) g.
Proof.
  intros H [ND N]. split; [exact ND|]. intros v j D. destruct (N v j D) as (m & Hm & Em). rewrite nth_error_list_set.
  destruct (Nat.eq_dec j i) as [->|]; [|eauto]. rewrite H in *. injection Hm as <-. exists (tabled n a). auto.
Qed.

(** Feeding several tables. *)
Lemma fed_nil b : fed b [] = b.
Proof. unfold fed. replace (map (fed1 []) (bnodes b)) with (bnodes b) by (symmetry; apply map_id). destruct b; reflexivity. Qed.

Lemma fed_fed b d d' : fed (fed b d) d' = mkBN (map (fun n => fed1 d' (fed1 d n)) (bnodes b)) (border b) (bedges b).
Proof. unfold fed. cbn. rewrite map_map. reflexivity. Qed.

Lemma fed_cons b v a d : ~ In v (dkeys d) -> fed (fed b [(v, a)]) d = fed b ((v, a) :: d).
Proof.
  intros N. rewrite fed_fed. unfold fed at 1. f_equal. apply map_ext. intros n. unfold fed1 at 1 3. rewrite fed1_name. unfold fed1. cbn [dget].
  destruct (String.eqb_spec (dn_name n) v) as [E|E].
  - rewrite E. rewrite (proj2 (dget_None v d)) by exact N. reflexivity.
  - reflexivity.
Qed.

Lemma fed_again b d d' : (forall v, In v (dkeys d) -> In v (dkeys d')) -> fed (fed b d) d' = fed b d'.
Proof.
  intros I. rewrite fed_fed. unfold fed. f_equal. apply map_ext. intros n. unfold fed1 at 1 3. rewrite fed1_name.
  destruct (dget (dn_name n) d') as [a|] eqn:D'.
  - unfold fed1. destruct (dget (dn_name n) d); reflexivity.
  - unfold fed1. destruct (dget (dn_name n) d) as [a|] eqn:D; [|reflexivity]. exfalso. apply dget_None in D'. apply D', I. apply dget_In in D. exact (in_map fst _ _ D).
Qed.
