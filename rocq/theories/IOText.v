(** Lemmas about text, element trees and Fortran order. *)
From Coq Require Import Ascii.
From Verif Require Import Base BaseFacts NDArray NDArrayFacts Xml.

(** ** Splitting and joining *)
Definition free_of (c : ascii) (s : string) : Prop := ~ In c (list_ascii_of_string s).

Lemma split_at_filled c s : split_at c s <> [].
Proof.
  destruct s as [|a s]; cbn; [discriminate|]. destruct (Ascii.eqb a c); [discriminate|]. destruct (split_at c s); discriminate.
Qed.

Lemma split_at_free c s : free_of c s -> split_at c s = [s].
Proof.
  induction s as [|a s IH]; intros F; [reflexivity|]. cbn in *. unfold free_of in F. cbn in F.
  destruct (Ascii.eqb_spec a c) as [->|N]; [destruct F; left; reflexivity|].
  rewrite IH; [reflexivity|]. intros X. apply F. right. exact X.
Qed.

Lemma split_at_app c s t : free_of c s -> split_at c (s ++ String c t)%string = s :: split_at c t.
Proof.
  induction s as [|a s IH]; intros F.
  - cbn. rewrite Ascii.eqb_refl. reflexivity.
  - unfold free_of in F. cbn in *. destruct (Ascii.eqb_spec a c) as [->|N]; [destruct F; left; reflexivity|].
    rewrite IH; [reflexivity|]. intros X. apply F. right. exact X.
Qed.

Lemma split_join c ws : ws <> [] -> Forall (free_of c) ws -> split_at c (join_with (String c "") ws) = ws.
Proof.
  induction ws as [|x ws IH]; intros N F; [contradiction|]. apply Forall_cons_iff in F. destruct F as [Fx F].
  destruct ws as [|y ws]; [apply split_at_free, Fx|].
  cbn [join_with String.append]. rewrite split_at_app by exact Fx. f_equal. apply IH; [discriminate|exact F].
Qed.

(** ** Stripping *)
Lemma rev_string_list s : forall acc, list_ascii_of_string (rev_string s acc) = rev (list_ascii_of_string s) ++ list_ascii_of_string acc.
Proof.
  induction s as [|a s IH]; intros acc; [reflexivity|]. cbn. rewrite IH. cbn. rewrite <- app_assoc. reflexivity.
Qed.

Lemma list_ascii_inj s t : list_ascii_of_string s = list_ascii_of_string t -> s = t.
Proof. intros E. rewrite <- (string_of_list_ascii_of_string s), E. apply string_of_list_ascii_of_string. Qed.

Lemma list_ascii_app s t : list_ascii_of_string (s ++ t)%string = list_ascii_of_string s ++ list_ascii_of_string t.
Proof. induction s as [|a s IH]; [reflexivity|]. cbn. rewrite IH. reflexivity. Qed.

Lemma lstrip_first a s : is_space a = false -> lstrip (String a s) = String a s.
Proof. intros E. cbn. rewrite E. reflexivity. Qed.

Lemma strip_solid s a l b l' : list_ascii_of_string s = a :: l -> rev (list_ascii_of_string s) = b :: l' ->
  is_space a = false -> is_space b = false -> strip s = s.
Proof.
  intros A B SA SB. unfold strip. destruct s as [|x s]; [discriminate|]. cbn in A. injection A as -> <-.
  rewrite (lstrip_first a s SA). set (r := rev_string (String a s) "").
  assert (R : list_ascii_of_string r = b :: l').
  { unfold r. rewrite rev_string_list. cbn [list_ascii_of_string]. rewrite app_nil_r. exact B. }
  assert (L : lstrip r = r).
  { destruct r as [|y r']; [discriminate|]. cbn in R. injection R as -> _. apply lstrip_first, SB. }
  rewrite L. apply list_ascii_inj. rewrite rev_string_list. unfold r. rewrite rev_string_list.
  cbn [list_ascii_of_string]. rewrite !app_nil_r. apply rev_involutive.
Qed.

Definition solid (s : string) : Prop := s <> ""%string /\ Forall (fun a => 33 <= nat_of_ascii a) (list_ascii_of_string s).

Lemma not_space a : 33 <= nat_of_ascii a -> is_space a = false.
Proof.
  intros H. unfold is_space. cbv zeta. apply orb_false_iff. split; apply andb_false_iff; right; apply Nat.leb_gt; lia.
Qed.

Lemma solid_free s : solid s -> free_of space s.
Proof.
  intros [_ F] I. rewrite Forall_forall in F. specialize (F _ I). cbv in F. lia.
Qed.

Lemma solid_ends s : solid s -> (exists a l, list_ascii_of_string s = a :: l /\ is_space a = false) /\
  (exists b l, rev (list_ascii_of_string s) = b :: l /\ is_space b = false).
Proof.
  intros [N F]. split.
  - destruct s as [|a s]; [contradiction|]. cbn in *. apply Forall_cons_iff in F. exists a, (list_ascii_of_string s).
    split; [reflexivity|apply not_space, F].
  - apply Forall_rev in F. destruct (rev (list_ascii_of_string s)) as [|b l] eqn:E.
    + apply (f_equal (@rev _)) in E. rewrite rev_involutive in E. cbn in E. destruct s; [contradiction|discriminate].
    + exists b, l. split; [reflexivity|]. apply Forall_cons_iff in F. apply not_space, F.
Qed.

Lemma join_ends ws : ws <> [] -> Forall solid ws ->
  (exists a l, list_ascii_of_string (join_with " " ws) = a :: l /\ is_space a = false) /\
  (exists b l, rev (list_ascii_of_string (join_with " " ws)) = b :: l /\ is_space b = false).
Proof.
  induction ws as [|x ws IH]; intros N F; [contradiction|]. apply Forall_cons_iff in F. destruct F as [Fx F].
  destruct ws as [|y ws]; [apply solid_ends, Fx|].
  destruct (IH) as [_ (b & l & E & SB)]; [discriminate|exact F|]. destruct (solid_ends x Fx) as [(a & l1 & E1 & SA) _].
  cbn [join_with]. cbn [join_with] in E. rewrite !list_ascii_app, E1. split.
  - do 2 eexists. split; [reflexivity|exact SA].
  - rewrite rev_app_distr, rev_app_distr, E. do 2 eexists. split; [reflexivity|exact SB].
Qed.

Theorem fields_of_line ws : ws <> [] -> Forall solid ws -> split_at space (strip (join_with " " ws)) = ws.
Proof.
  intros N F. destruct (join_ends ws N F) as [(a & l & E & SA) (b & l' & E' & SB)].
  rewrite (strip_solid _ a l b l' E E' SA SB). apply split_join; [exact N|]. eapply Forall_impl; [|exact F]. apply solid_free.
Qed.

Lemma legal_text_spec s : legal_text s = true <-> Forall (fun a => legal_char a = true) (list_ascii_of_string s).
Proof.
  induction s as [|a s IH]; cbn; [split; [constructor|reflexivity]|]. rewrite andb_true_iff, IH, Forall_cons_iff. tauto.
Qed.

Lemma legal_join ws : Forall solid ws -> legal_text (join_with " " ws) = true.
Proof.
  induction ws as [|x ws IH]; intros F; [reflexivity|]. apply Forall_cons_iff in F. destruct F as [[_ Fx] F].
  assert (L : Forall (fun a => legal_char a = true) (list_ascii_of_string x)).
  { eapply Forall_impl; [|exact Fx]. intros a H. unfold legal_char. cbv zeta. cbn beta in H. replace (Nat.leb 32 (nat_of_ascii a)) with true; [reflexivity|].
    symmetry. apply Nat.leb_le. lia. }
  specialize (IH F). apply legal_text_spec in IH. apply legal_text_spec. destruct ws as [|y ws]; [exact L|].
  cbn [join_with]. rewrite !list_ascii_app. apply Forall_app. split; [exact L|]. cbn. constructor; [reflexivity|exact IH].
Qed.

(** ** Fortran order *)
Lemma inb_rev sh : forall ix, inb sh ix <-> inb (rev sh) (rev ix).
Proof.
  assert (A : forall s1 s2 i1 i2, inb s1 i1 -> inb s2 i2 -> inb (s1 ++ s2) (i1 ++ i2)).
  { intros s1 s2 i1 i2 H1 H2. unfold inb in *. apply Forall2_app; assumption. }
  assert (B : forall s i, inb s i -> inb (rev s) (rev i)).
  { intros s i H. induction H as [|x y l l' E _ IH]; [constructor|]. cbn. apply A; [exact IH|]. repeat constructor; exact E. }
  intros ix. split; [apply B|]. intros H. apply B in H. rewrite !rev_involutive in H. exact H.
Qed.

Lemma prodn_rev sh : prodn (rev sh) = prodn sh.
Proof. induction sh as [|d sh IH]; [reflexivity|]. cbn. rewrite prodn_app, IH. cbn. lia. Qed.

Lemma length_ravel_F a : length (ravel_F a) = prodn (shape a).
Proof. unfold ravel_F. rewrite map_length, length_indices. apply prodn_rev. Qed.

(** The element at [ix] stands where the reversed index stands in C order. *)
Lemma nth_ravel_F a ix : inb (shape a) ix -> nth (ravel (rev (shape a)) (rev ix)) (ravel_F a) 0%Qc = aget a ix.
Proof.
  intros H. apply inb_rev in H. apply nth_error_nth. unfold ravel_F. rewrite nth_error_map, nth_error_ravel by exact H.
  cbn. rewrite rev_involutive. reflexivity.
Qed.

Lemma reshape_ravel_F a : wfa a -> reshape_F (shape a) (ravel_F a) = Ok a.
Proof.
  intros W. unfold reshape_F. rewrite length_ravel_F, Nat.eqb_refl. f_equal. transitivity (tabulate (shape a) (aget a)); [|apply tabulate_aget, W].
  apply tabulate_ext. intros ix H. apply nth_ravel_F, H.
Qed.

(** ** Elements *)
Lemma iter_tag_eq tag e : iter_tag tag e = (if String.eqb tag (xtag e) then [e] else []) ++ flat_map (iter_tag tag) (xkids e).
Proof.
  destruct e as [t a x ks]. unfold iter_tag at 1. cbn [preorder filter xtag xkids].
  assert (E : filter (fun k => String.eqb tag (xtag k)) (flat_map preorder ks) = flat_map (iter_tag tag) ks).
  { induction ks as [|k ks IH]; [reflexivity|]. cbn. rewrite filter_app, IH. reflexivity. }
  rewrite E. destruct (String.eqb tag t); reflexivity.
Qed.

Lemma flat_map_nil {A B} (f : A -> list B) l : (forall x, In x l -> f x = []) -> flat_map f l = [].
Proof.
  induction l as [|x l IH]; intros H; [reflexivity|]. cbn. rewrite H by (left; reflexivity). apply IH. intros y Hy. apply H. right. exact Hy.
Qed.

Lemma iter_leaf tag e : xkids e = [] -> iter_tag tag e = if String.eqb tag (xtag e) then [e] else [].
Proof. intros E. rewrite iter_tag_eq, E. cbn. apply app_nil_r. Qed.

Lemma filter_all {A} (f : A -> bool) l : (forall x, In x l -> f x = true) -> filter f l = l.
Proof.
  induction l as [|x l IH]; intros H; [reflexivity|]. cbn. rewrite H by (left; reflexivity). f_equal. apply IH. intros y Hy. apply H. right. exact Hy.
Qed.

Lemma filter_none {A} (f : A -> bool) l : (forall x, In x l -> f x = false) -> filter f l = [].
Proof.
  induction l as [|x l IH]; intros H; [reflexivity|]. cbn. rewrite H by (left; reflexivity). apply IH. intros y Hy. apply H. right. exact Hy.
Qed.

Lemma xtag_reread d e : xtag (reread d e) = xtag e.
Proof. destruct e. reflexivity. Qed.
