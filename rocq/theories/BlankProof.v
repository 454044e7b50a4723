(** What is left of a text when blanks are stripped. *)
From Coq Require Import Ascii.
From Verif Require Import Base BaseFacts Node Network Xml IO IOText IOSpec ParseSpec IOParse.

Lemma lstrip_list s : exists pre, list_ascii_of_string s = pre ++ list_ascii_of_string (lstrip s) /\ Forall (fun a => is_space a = true) pre /\
  (forall a l, list_ascii_of_string (lstrip s) = a :: l -> is_space a = false).
Proof.
  induction s as [|a s IH]; [exists []; split; [reflexivity|]; split; [constructor|discriminate]|]. cbn [lstrip]. destruct (is_space a) eqn:E.
  - destruct IH as (pre & A & B & C). exists (a :: pre). cbn [list_ascii_of_string app]. rewrite A at 1. split; [reflexivity|]. split; [now constructor|exact C].
  - exists []. split; [reflexivity|]. split; [constructor|]. cbn [list_ascii_of_string]. intros x l H. inversion H; now subst.
Qed.

Lemma strip_list s : exists pre post, list_ascii_of_string s = pre ++ list_ascii_of_string (strip s) ++ post /\
  Forall (fun a => is_space a = true) pre /\ Forall (fun a => is_space a = true) post /\
  (forall a l, list_ascii_of_string (strip s) = a :: l -> is_space a = false) /\
  (forall l a, list_ascii_of_string (strip s) = l ++ [a] -> is_space a = false).
Proof.
  unfold strip. destruct (lstrip_list s) as (pre & A & B & C). set (t := lstrip s) in *. destruct (lstrip_list (rev_string t "")) as (post & D & E & F).
  set (u := lstrip (rev_string t "")) in *. rewrite rev_string_list in D. cbn [list_ascii_of_string] in D. rewrite app_nil_r in D.
  assert (T : list_ascii_of_string t = rev (list_ascii_of_string u) ++ rev post) by (rewrite <- rev_app_distr, <- D; symmetry; apply rev_involutive).
  exists pre, (rev post). rewrite rev_string_list. cbn [list_ascii_of_string]. rewrite app_nil_r. split; [now rewrite A, T|]. split; [exact B|]. split; [now apply Forall_rev|]. split.
  - intros a l H. rewrite H in T. apply (C a (l ++ rev post)). exact T.
  - intros l a H. apply (f_equal (@rev _)) in H. rewrite rev_involutive, rev_app_distr in H. exact (F a (rev l) H).
Qed.

(** Two ways to take blanks off the ends of a text, leaving no blank at the ends. *)
Lemma solid_prefix (P : ascii -> bool) pre pre' x x' : pre ++ x = pre' ++ x' -> Forall (fun a => P a = true) pre -> Forall (fun a => P a = true) pre' ->
  (forall a l, x = a :: l -> P a = false) -> (forall a l, x' = a :: l -> P a = false) -> x = x'.
Proof.
  revert pre'. induction pre as [|a pre IH]; intros [|a' pre'] E F F' H H'; cbn [app] in E; auto.
  - inversion F'; subst. rewrite (H a' _ eq_refl) in *. discriminate.
  - inversion F; subst. rewrite (H' a _ eq_refl) in *. discriminate.
  - inversion E; subst. inversion F; inversion F'; subst. eapply IH; eauto.
Qed.

Lemma strip_pad pre s post : Forall (fun a => is_space a = true) (list_ascii_of_string pre) -> Forall (fun a => is_space a = true) (list_ascii_of_string post) ->
  (exists a l, list_ascii_of_string s = a :: l /\ is_space a = false) -> (exists l a, list_ascii_of_string s = l ++ [a] /\ is_space a = false) ->
  strip (pre ++ s ++ post)%string = s.
Proof.
  intros FP FQ (a & l & A & SA) (l' & z & Z & SZ). destruct (strip_list (pre ++ s ++ post)%string) as (p & q & E & B & C & D & F).
  rewrite !list_ascii_app in E. set (r := list_ascii_of_string (strip _)) in *. set (x := list_ascii_of_string s) in *.
  assert (NE : r <> []).
  { intros R. rewrite R in E. cbn [app] in E. assert (I : In a (p ++ q)) by (rewrite <- E; apply in_or_app; right; apply in_or_app; left; rewrite A; now left).
    apply in_app_or in I. rewrite Forall_forall in B, C. destruct I as [I|I]; [specialize (B a I)|specialize (C a I)]; congruence. }
  assert (E1 : x ++ list_ascii_of_string post = r ++ q).
  { apply (solid_prefix is_space (list_ascii_of_string pre) p); auto.
    - intros y m Y. rewrite A in Y. cbn [app] in Y. inversion Y; now subst.
    - intros y m Y. destruct r as [|r0 r']; [contradiction|]. cbn [app] in Y. inversion Y; subst. exact (D _ _ eq_refl). }
  apply list_ascii_inj. fold r x. symmetry. rewrite <- (rev_involutive x), <- (rev_involutive r). f_equal.
  apply (solid_prefix is_space (rev (list_ascii_of_string post)) (rev q)).
  - rewrite <- !rev_app_distr. now f_equal.
  - now apply Forall_rev.
  - now apply Forall_rev.
  - intros y m Y. rewrite Z, rev_app_distr in Y. cbn [rev app] in Y. inversion Y; now subst.
  - intros y m Y. apply (F (rev m) y). rewrite <- (rev_involutive r), Y. reflexivity.
Qed.

Lemma table_fields {FT : FloatText} e pre ws post l : ws <> [] -> Forall solid ws ->
  Forall (fun a => is_space a = true) (list_ascii_of_string pre) -> Forall (fun a => is_space a = true) (list_ascii_of_string post) ->
  first_text "TABLE" e = Some (Some (pre ++ join_with " " ws ++ post)%string) ->
  (parse_table e = Ok l <-> map fread ws = map Some l).
Proof.
  intros N S FP FQ FT1. destruct (join_ends ws N S) as [A (z & m & Z & SZ)].
  assert (SP : split_at space (strip (pre ++ join_with " " ws ++ post)) = ws).
  { rewrite strip_pad; auto.
    - apply split_join; [exact N|]. eapply Forall_impl; [|exact S]. apply solid_free.
    - exists (rev m), z. split; [|exact SZ]. rewrite <- (rev_involutive (list_ascii_of_string _)), Z. reflexivity. }
  split; intros H.
  - destruct (table_read e l H) as (s & F & R). rewrite FT1 in F. inversion F; subst s. now rewrite SP in R.
  - unfold parse_table. apply child_first in FT1. rewrite FT1. cbn [rbind]. rewrite SP. clear - H. revert l H. induction ws as [|w ws IH]; intros [|x l] H; cbn [map mapM] in *; try discriminate; [reflexivity|].
    inversion H as [[H1 H2]]. rewrite H1. cbn [rbind]. now rewrite (IH l H2).
Qed.
