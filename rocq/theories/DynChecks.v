(** Building concrete dynamic networks through the API, and checking what the
    theorems ask of them. *)
From Verif Require Import Base BaseFacts NDArray Factor Exact Spec SpecFacts Checks Order OrderSpec JoinTree TreeSpec JTDefault Node Network NetSpec NetFacts NetInv NetTop NetView NetChecks
  MCSpec MCChecks Dynamic DynSpec DynPure DynHeap DynIndep Instances.

(** ** Two networks built by separate calls, in one heap *)
Definition side_by_side (w0 w1 : world) (trans : list (string * string)) : heap * dbnet :=
  (whp w0 ++ map (shift_node (length (whp w0))) (whp w1),
   mkDbn (wnet w0) (shift_net (length (whp w0)) (wnet w1)) trans).

Lemma holds_app h rest g v i n : consistent (mkW h g) -> (holds (mkW (h ++ rest) g) v i n <-> holds (mkW h g) v i n).
Proof.
  intros C. unfold holds. cbn [wnet whp]. split; intros [D H]; (split; [exact D|]).
  - destruct (co_named _ C v i D) as (m & Hm & _). cbn [whp] in Hm. rewrite nth_error_app1 in H by (apply nth_error_Some; congruence). exact H.
  - rewrite nth_error_app1 by (apply nth_error_Some; congruence). exact H.
Qed.

Lemma consistent_app h rest g : consistent (mkW h g) -> consistent (mkW (h ++ rest) g).
Proof.
  intros C. assert (C' := C). destruct C' as [C1 C2 C3 C4 C5 C6 C7 C8 C9 C10]. constructor; cbn [wnet whp] in *; auto.
  - intros v i D. destruct (C4 v i D) as (n & Hn & E). exists n. split; [|exact E]. rewrite nth_error_app1 by (apply nth_error_Some; congruence). exact Hn.
  - intros v i n H. apply (holds_app h rest g v i n C) in H. exact (C7 v i n H).
  - intros v i n u H. apply (holds_app h rest g v i n C) in H. exact (C8 v i n u H).
  - intros v i n H. apply (holds_app h rest g v i n C) in H. exact (C9 v i n H).
  - intros v i n u o H. apply (holds_app h rest g v i n C) in H. exact (C10 v i n u o H).
Qed.

Lemma nth_shifted h0 h i : nth_error (h0 ++ map (shift_node (length h0)) h) (i + length h0) = option_map (shift_node (length h0)) (nth_error h i).
Proof. rewrite nth_error_app2 by lia. replace (i + length h0 - length h0) with i by lia. apply nth_error_map. Qed.

Lemma holds_shift h0 h g v i n : holds (mkW (h0 ++ map (shift_node (length h0)) h) (shift_net (length h0) g)) v i n ->
  exists j m, i = j + length h0 /\ n = shift_node (length h0) m /\ holds (mkW h g) v j m.
Proof.
  unfold holds. cbn [wnet whp shift_net lookup]. rewrite dget_shift. intros [D H]. destruct (dget v (lookup g)) as [j|] eqn:E; [|discriminate]. cbn in D. injection D as <-.
  rewrite nth_shifted in H. destruct (nth_error h j) as [m|] eqn:Hm; [|discriminate]. cbn in H. injection H as <-. eauto 6.
Qed.

Lemma consistent_shift h0 h g : consistent (mkW h g) -> consistent (mkW (h0 ++ map (shift_node (length h0)) h) (shift_net (length h0) g)).
Proof.
  intros [C1 C2 C3 C4 C5 C6 C7 C8 C9 C10]. constructor; cbn [wnet whp shift_net lookup ggraph gedges] in *; rewrite ?dkeys_shift; auto.
  - intros v i. rewrite !dget_shift. split; intros H.
    + destruct (dget v (ggraph g)) as [j|] eqn:E; [|discriminate]. apply C3 in E. rewrite E. exact H.
    + destruct (dget v (lookup g)) as [j|] eqn:E; [|discriminate]. apply C3 in E. rewrite E. exact H.
  - intros v i. rewrite dget_shift. destruct (dget v (lookup g)) as [j|] eqn:E; [|discriminate]. cbn. intros X. injection X as <-. destruct (C4 v j E) as (n & Hn & EN).
    exists (shift_node (length h0) n). rewrite nth_shifted, Hn. auto.
  - intros v i n H. apply holds_shift in H. destruct H as (j & m & -> & -> & H). exact (C7 v j m H).
  - intros v i n u H. apply holds_shift in H. destruct H as (j & m & -> & -> & H). exact (C8 v j m u H).
  - intros v i n H. apply holds_shift in H. destruct H as (j & m & -> & -> & H). cbn [shift_node with_parents nparents]. rewrite dkeys_shift. exact (C9 v j m H).
  - intros v i n u o H. apply holds_shift in H. destruct H as (j & m & -> & -> & H). cbn [shift_node with_parents nparents]. rewrite !dget_shift.
    assert (X := C10 v j m u). unfold edge in *. cbn [wnet gedges shift_net] in *. destruct (dget u (nparents m)) as [k|] eqn:E; cbn [option_map].
    + destruct (proj1 (X k H) eq_refl) as [X1 X2]. rewrite X2. cbn. split; [intros Y; auto|intros [_ Y]; exact Y].
    + split; [discriminate|]. intros [X1 X2]. destruct (dget u (lookup g)) as [k|] eqn:E2; [|discriminate]. assert (Y := proj2 (X k H) (conj X1 eq_refl)). discriminate.
Qed.

Lemma view_side_0 w0 w1 tr : consistent w0 -> view (mkW (fst (side_by_side w0 w1 tr)) (db0 (snd (side_by_side w0 w1 tr)))) = view w0.
Proof.
  intros C. cbn. destruct w0 as [h g]. cbn [whp wnet]. unfold view. cbn [whp wnet]. f_equal. apply map_ext_in. intros (v & i) I. cbn [snd].
  assert (D : dget v (lookup g) = Some i) by (apply In_dget; [apply C|exact I]).
  destruct (co_named _ C v i D) as (n & Hn & En). cbn [whp] in Hn. rewrite (deref_ok h i n Hn).
  rewrite (deref_ok (h ++ _) i n) by (rewrite nth_error_app1; [exact Hn|]; apply nth_error_Some; congruence).
  unfold snapshot_node. f_equal. apply map_ext. intros p. f_equal. unfold parent_values, dget_err. destruct (dget p (nparents n)) as [o|] eqn:Dp; [|reflexivity].
  cbn. unfold hget. assert (X := proj1 (co_pdict _ C v i n p o (conj D Hn)) Dp). destruct X as [_ X]. destruct (co_named _ C p o X) as (q & Hq & _). cbn [whp] in Hq.
  rewrite nth_error_app1 by (apply nth_error_Some; congruence). reflexivity.
Qed.

Lemma view_side_two w0 w1 tr : view (mkW (fst (side_by_side w0 w1 tr)) (dtwo (snd (side_by_side w0 w1 tr)))) = view w1.
Proof.
  destruct w0 as [h0 g0], w1 as [h g]. unfold view. cbn [side_by_side fst snd whp wnet dtwo shift_net lookup ggraph gedges]. rewrite dkeys_shift. f_equal. unfold shift_dict. rewrite map_map. apply map_ext. intros (v & i). cbn [snd fst].
  assert (S : forall n, snapshot_node (h0 ++ map (shift_node (length h0)) h) (shift_node (length h0) n) = snapshot_node h n).
  { intros n. unfold snapshot_node, shift_node. cbn [with_parents nname nvalues nparents nporder ncpd]. rewrite dkeys_shift. f_equal. apply map_ext. intros p. f_equal.
    unfold parent_values. cbn [with_parents nparents]. unfold dget_err. rewrite dget_shift. destruct (dget p (nparents n)) as [j|]; [|reflexivity]. cbn.
    unfold hget. rewrite nth_shifted. destruct (nth_error h j) as [m|]; reflexivity. }
  unfold deref. destruct (nth_error h i) as [n|] eqn:E.
  - rewrite (nth_error_nth h i _ E). rewrite (nth_error_nth _ _ _ (eq_trans (nth_shifted h0 h i) (f_equal _ E))). apply S.
  - apply nth_error_None in E. rewrite (nth_overflow h) by exact E. rewrite (nth_overflow (h0 ++ _)) by (rewrite app_length, map_length; lia). reflexivity.
Qed.

(** Any two networks built through the API can be combined. *)
Theorem side_objects w0 w1 tr : reached w0 -> reached w1 -> (forall v p, In (v, p) tr -> In v (dkeys (lookup (wnet w1)))) ->
  objects (fst (side_by_side w0 w1 tr)) (snd (side_by_side w0 w1 tr)).
Proof.
  intros R0 R1 T. assert (C0 := iv_c _ (reached_inv _ R0)). assert (C1 := iv_c _ (reached_inv _ R1)). destruct w0 as [h0 g0], w1 as [h g]. cbn [side_by_side fst snd whp wnet]. constructor; cbn [db0 dtwo dtrans].
  - apply consistent_app, C0.
  - apply consistent_shift, C1.
  - intros v p I. apply T in I. cbn [wnet] in I. destruct (dget_key v (lookup g) I) as (i & D). destruct (co_named _ C1 v i D) as (n & Hn & _). cbn [whp] in Hn.
    exists (i + length h0), (shift_node (length h0) n). split.
    + split; cbn [wnet whp shift_net lookup]; [rewrite dget_shift, D; reflexivity|rewrite nth_shifted, Hn; reflexivity].
    + exact (proj1 (iv_f _ (reached_inv _ R1) v i n (conj D Hn))).
Qed.

(** ** A network's script *)
Fixpoint create_all (k : nat) (ns : list dnode) : list op :=
  match ns with [] => [] | n :: ns' => NewNode KDiscrete (dn_name n) (dn_values n) :: AddNode k :: create_all (S k) ns' end.
Fixpoint tables_all (k : nat) (ns : list dnode) : list op :=
  match ns with [] => [] | n :: ns' => SetCpd k false (dn_cpd n) :: tables_all (S k) ns' end.
Definition script (b : bn) : list op :=
  create_all 0 (bnodes b) ++ flat_map (fun n => map (fun p => AddEdge (fst p) (dn_name n)) (dn_parents n)) (bnodes b) ++ tables_all 0 (bnodes b).
Definition world_of (b : bn) : world := run start (script b).

Lemma world_of_reached b : all_withinb start (script b) = true -> reached (world_of b).
Proof. intros H. apply reached_run; [apply reached_start|apply all_withinb_ok, H]. Qed.

Definition dbn_of (b0 two : bn) (tr : list (string * string)) : heap * dbnet := side_by_side (world_of b0) (world_of two) tr.

(** ** Checks *)
Definition wiredb (b0 two : bn) (trans : list (string * string)) : bool :=
  nodup_sb (map fst trans) &&
  forallb (fun vp => existsb (fun n => String.eqb (dn_name n) (fst vp) && (match dn_parents n with [] => true | _ => false end)) (bnodes two) &&
                     mem (snd vp) (bnames b0) && eqb_ls (values_of b0 (snd vp)) (values_of two (fst vp)) &&
                     mem (snd vp) (bnames two) && eqb_ls (values_of two (snd vp)) (values_of two (fst vp))) trans.

Lemma wiredb_ok b0 two trans : wiredb b0 two trans = true -> wired b0 two trans.
Proof.
  unfold wiredb. rewrite andb_true_iff, forallb_forall. intros [H1 H2].
  assert (H3 : forall v p, In (v, p) trans -> (exists n, In n (bnodes two) /\ dn_name n = v /\ dn_parents n = []) /\
     (In p (bnames b0) /\ values_of b0 p = values_of two v) /\ (In p (bnames two) /\ values_of two p = values_of two v)).
  { intros v p I. specialize (H2 (v, p) I). cbn [fst snd] in H2. rewrite !andb_true_iff in H2. destruct H2 as ((((A & B) & C) & D) & E).
    apply mem_In in B, D. apply eqb_ls_eq in C, E. apply existsb_exists in A. destruct A as (n & In1 & A). apply andb_true_iff in A. destruct A as [A1 A2]. apply String.eqb_eq in A1.
    split; [|auto]. exists n. split; [exact In1|]. split; [exact A1|]. destruct (dn_parents n); [reflexivity|discriminate]. }
  constructor; [apply nodup_sb_ok, H1| | |]; intros v p I; apply (H3 v p I).
Qed.

Lemma suited_ok b o l : order_or_default b None = Ok o -> suitsb b o l = true -> suited b.
Proof. intros E S. exists o. split; [exact E|exact (suitsb_ok b o l S)]. Qed.

(** Everything [trackable] asks for. *)
Definition trackableb (b0 two : bn) (trans : list (string * string)) (l0 l1 : list string) : bool :=
  match order_or_default b0 None, order_or_default two None with
  | Ok o0, Ok o1 => suitsb b0 o0 l0 && suitsb two o1 l1 && nonnegb b0 && nonnegb two && wiredb b0 two trans
  | _, _ => false
  end.
Lemma trackableb_ok b0 two trans l0 l1 : trackableb b0 two trans l0 l1 = true -> trackable b0 two trans.
Proof.
  unfold trackableb. destruct (order_or_default b0 None) as [o0|] eqn:E0; [|discriminate]. destruct (order_or_default two None) as [o1|] eqn:E1; [|discriminate].
  rewrite !andb_true_iff. intros ((((A & B) & C) & D) & E). constructor.
  - exact (suited_ok _ _ _ E0 A). - exact (suited_ok _ _ _ E1 B). - apply nonnegb_ok, C. - apply nonnegb_ok, D. - apply wiredb_ok, E.
Qed.

Definition fittingb (b0 two : bn) (done : list evidence) (e : evidence) : bool :=
  ev_okb (slice_base b0 two (length done)) e && subset (dkeys e) (bnames (slice_base b0 two (length done))).
Lemma fittingb_ok b0 two done e : fittingb b0 two done e = true -> fitting_evidence b0 two done e.
Proof. unfold fittingb. rewrite andb_true_iff. intros [A B]. split; [apply ev_okb_ok, A|]. apply subset_spec, B. Qed.

Definition factorisedb (b0 two : bn) (trans : list (string * string)) (evs : list evidence) : bool :=
  forallb (fun s => qeqb (link_mass b0 two trans evs s / filter_mass b0 two trans evs []) (qprod (map (fun vp => filtered b0 two trans evs [(snd vp, look s (fst vp))]) trans)))
          (states (bvars two)).
Lemma factorisedb_ok b0 two trans evs : factorisedb b0 two trans evs = true -> factorised b0 two trans evs.
Proof. unfold factorisedb. rewrite forallb_forall. intros H s I. apply qeqb_true, H, I. Qed.
