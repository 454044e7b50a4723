(** Paths, and the round trip of dynamic networks through files. *)
From Coq Require Import Ascii.
From Verif Require Import Base BaseFacts NDArray Node Network NetSpec NetFacts NetInv Dynamic DynHeap DynChecks Xml IO IOText IOSpec IOProof Files FilesSpec.

(** ** Strings *)
Lemma sapp_nil s : (s ++ "" = s)%string.
Proof. induction s as [|a s IH]; [reflexivity|]. cbn. rewrite IH. reflexivity. Qed.

Lemma sapp_assoc a b c : (a ++ b ++ c = (a ++ b) ++ c)%string.
Proof. induction a as [|x a IH]; [reflexivity|]. cbn. rewrite IH. reflexivity. Qed.

Lemma split_cons c a s : a <> c -> exists x l, split_at c s = x :: l /\ split_at c (String a s) = String a x :: l.
Proof.
  intros N. destruct (split_at c s) as [|x l] eqn:E; [exfalso; exact (split_at_filled c s E)|]. exists x, l. split; [reflexivity|].
  cbn. destruct (Ascii.eqb_spec a c); [contradiction|]. rewrite E. reflexivity.
Qed.

Lemma split_mid c s t : split_at c (s ++ String c t)%string = split_at c s ++ split_at c t.
Proof.
  induction s as [|a s IH].
  - cbn. rewrite Ascii.eqb_refl. reflexivity.
  - cbn. destruct (Ascii.eqb_spec a c) as [->|N]; [rewrite IH; reflexivity|].
    rewrite IH. destruct (split_at c s) as [|x l] eqn:E; [exfalso; exact (split_at_filled c s E)|]. reflexivity.
Qed.

Lemma split_comps_free c s : Forall (free_of c) (split_at c s).
Proof.
  induction s as [|a s IH]; cbn; [constructor; [intros []|constructor]|].
  destruct (Ascii.eqb_spec a c) as [->|N]; [constructor; [intros []|exact IH]|].
  destruct (split_at c s) as [|x l]; [constructor; [|constructor]; intros [X|[]]; contradiction|].
  apply Forall_cons_iff in IH. destruct IH as [Fx Fl]. constructor; [|exact Fl].
  intros [X|X]; [contradiction|exact (Fx X)].
Qed.

Lemma join_app c l1 l2 : l1 <> [] -> l2 <> [] ->
  join_with (String c "") (l1 ++ l2) = (join_with (String c "") l1 ++ String c (join_with (String c "") l2))%string.
Proof.
  induction l1 as [|x l1 IH]; intros N1 N2; [contradiction|]. destruct l1 as [|y l1].
  - cbn. destruct l2; [contradiction|reflexivity].
  - change (join_with (String c "") ((x :: y :: l1) ++ l2)) with (x ++ String c "" ++ join_with (String c "") ((y :: l1) ++ l2))%string.
    rewrite IH by (discriminate || exact N2). cbn [join_with]. rewrite <- !sapp_assoc. reflexivity.
Qed.

Lemma join_split c s : join_with (String c "") (split_at c s) = s.
Proof.
  induction s as [|a s IH]; [reflexivity|]. cbn. destruct (Ascii.eqb_spec a c) as [->|N].
  - destruct (split_at c s) as [|x l] eqn:E; [exfalso; exact (split_at_filled c s E)|]. 
    change (join_with (String c "") (""%string :: x :: l)) with ("" ++ String c "" ++ join_with (String c "") (x :: l))%string. rewrite IH. reflexivity.
  - destruct (split_at c s) as [|x l]; [cbn in IH; subst s; reflexivity|].
    transitivity (String a (join_with (String c "") (x :: l))); [|rewrite IH; reflexivity]. destruct l; reflexivity.
Qed.

(** ** Following paths *)
Section Walk.
Variable f : fs.
Hypothesis G : good_fs f.

Lemma walk_app l1 : forall at_ l2, walk f at_ (l1 ++ l2) = match walk f at_ l1 with Some l => walk f l l2 | None => None end.
Proof.
  induction l1 as [|c l1 IH]; intros at_ l2; [reflexivity|]. cbn. destruct (is_dir f at_); [|reflexivity].
  destruct (_ || _); [apply IH|]. destruct (String.eqb c ".."); apply IH.
Qed.

Lemma clean_flags c : clean c -> String.eqb c "" || String.eqb c "." = false /\ String.eqb c ".." = false.
Proof. intros (A & B & D & _). rewrite !eqb_neq_s by assumption. auto. Qed.

Lemma walk_clean l : forall at_, Forall clean l -> (forall l1 c l2, l = l1 ++ c :: l2 -> is_dir f (at_ ++ l1) = true) ->
  walk f at_ l = Some (at_ ++ l).
Proof.
  induction l as [|c l IH]; intros at_ F D; [cbn; rewrite app_nil_r; reflexivity|].
  apply Forall_cons_iff in F. destruct F as [Fc F]. destruct (clean_flags c Fc) as [E1 E2]. cbn.
  assert (X := D [] c l eq_refl). rewrite app_nil_r in X. rewrite X, E1, E2, IH, <- app_assoc.
  - reflexivity.
  - exact F.
  - intros l1 c' l2 ->. rewrite <- app_assoc. apply (D (c :: l1) c' l2). reflexivity.
Qed.

Lemma dirs_below l2 : forall l1, is_dir f (l1 ++ l2) = true -> is_dir f l1 = true.
Proof.
  induction l2 as [|c l2 IH] using rev_ind; intros l1 H; [rewrite app_nil_r in H; exact H|].
  rewrite app_assoc in H. apply (gf_up f G) in H. apply IH, H.
Qed.

Lemma walk_to l c : is_dir f l = true -> clean c -> walk f [] (l ++ [c]) = Some (l ++ [c]).
Proof.
  intros D Cc. apply (walk_clean (l ++ [c]) []).
  - apply Forall_app. split; [apply (gf_clean f G), D|constructor; [exact Cc|constructor]].
  - intros l1 c' l2 E. cbn. destruct l2 as [|y l2] using rev_ind.
    + apply app_inj_tail in E. destruct E as [<- _]. exact D.
    + rewrite app_comm_cons, app_assoc in E. apply app_inj_tail in E. destruct E as [-> _]. exact (dirs_below (c' :: l2) l1 D).
Qed.

Lemma walk_end cs : forall at_ l, is_dir f at_ = true -> walk f at_ (cs ++ [""%string]) = Some l -> is_dir f l = true.
Proof.
  induction cs as [|c cs IH]; intros at_ l D W; cbn in W.
  - rewrite D in W. injection W as <-. exact D.
  - rewrite D in W. destruct (_ || _); [apply (IH at_ l D W)|]. destruct (String.eqb c "..").
    + apply (IH (removelast at_) l); [|exact W]. destruct at_ as [|x at_] using rev_ind; [reflexivity|].
      rewrite removelast_last. apply (gf_up f G at_ x D).
    + destruct (is_dir f (at_ ++ [c])) eqn:D'; [apply (IH _ l D' W)|].
      exfalso. destruct cs; cbn in W; rewrite D' in W; discriminate.
Qed.

(** Following a path gives the normal form of the path. *)
Lemma walk_norm cs : forall at_ l, Forall clean at_ -> Forall (free_of slash) cs -> walk f at_ cs = Some l ->
  norm_comps true (rev at_) cs = l /\ Forall clean l.
Proof.
  induction cs as [|c cs IH]; intros at_ l Fa Fc W; cbn in W |- *.
  - injection W as <-. rewrite rev_involutive. auto.
  - apply Forall_cons_iff in Fc. destruct Fc as [Fc Fcs]. destruct (is_dir f at_); [|discriminate].
    destruct (String.eqb c "" || String.eqb c ".") eqn:E1; [apply IH; assumption|].
    apply orb_false_iff in E1. destruct E1 as [N1 N2]. apply String.eqb_neq in N1, N2.
    destruct (String.eqb c "..") eqn:E2.
    + assert (X : is_dotdot (rev at_) = false).
      { destruct at_ as [|x at_] using rev_ind; [reflexivity|]. rewrite rev_app_distr. cbn.
        apply Forall_app in Fa. destruct Fa as [_ Fx]. apply Forall_cons_iff in Fx. apply eqb_neq_s. apply Fx. }
      rewrite X. cbn. assert (Y : tl (rev at_) = rev (removelast at_)).
      { destruct at_ as [|x at_] using rev_ind; [reflexivity|]. rewrite rev_app_distr, removelast_last. reflexivity. }
      rewrite Y. apply IH; [|exact Fcs|exact W].
      destruct at_ as [|x at_] using rev_ind; [constructor|]. rewrite removelast_last. apply Forall_app in Fa. apply Fa.
    + cbn [negb orb]. apply String.eqb_neq in E2. replace (c :: rev at_) with (rev (at_ ++ [c])) by (rewrite rev_app_distr; reflexivity).
      apply IH; [|exact Fcs|exact W]. apply Forall_app. split; [exact Fa|]. constructor; [|constructor].
      repeat split; assumption.
Qed.

Lemma norm_clean at_ : forall acc cs, Forall clean at_ -> norm_comps true acc (at_ ++ cs) = norm_comps true (rev at_ ++ acc) cs.
Proof.
  induction at_ as [|c l IH]; intros acc cs F; [reflexivity|]. apply Forall_cons_iff in F. destruct F as [Fc F].
  destruct (clean_flags c Fc) as [E1 E2]. cbn. rewrite E1, E2. cbn. rewrite IH by exact F. f_equal. rewrite <- app_assoc. reflexivity.
Qed.

Lemma last_char_app s a t : last_char (s ++ String a t)%string = last_char (String a t).
Proof.
  induction s as [|b s IH]; [reflexivity|]. cbn [append]. rewrite <- IH. cbn.
  destruct (s ++ String a t)%string eqn:E; [destruct s; discriminate|reflexivity].
Qed.

Lemma last_char_in s a : last_char s = Some a -> In a (list_ascii_of_string s).
Proof.
  induction s as [|b s IH]; [discriminate|]. intros H. destruct s as [|c s]; [cbn in *; left; congruence|].
  right. apply IH, H.
Qed.

Lemma last_char_filled s : s <> ""%string -> exists a, last_char s = Some a.
Proof.
  induction s as [|b s IH]; [contradiction|]. intros _. destruct s as [|c s]; [exists b; reflexivity|]. apply IH. discriminate.
Qed.

Lemma last_char_join l : l <> [] -> Forall clean l -> exists a, last_char (join_with "/" l) = Some a /\ a <> slash.
Proof.
  induction l as [|c l IH]; intros N F; [contradiction|]. apply Forall_cons_iff in F. destruct F as [Fc F]. destruct l as [|y l].
  - cbn. destruct Fc as (A & _ & _ & B). destruct (last_char_filled c A) as (a & E). exists a. split; [exact E|].
    intros ->. apply B, last_char_in, E.
  - destruct IH as (a & E & Na); [discriminate|exact F|]. exists a. split; [|exact Na].
    change (join_with "/" (c :: y :: l)) with (c ++ String slash (join_with "/" (y :: l)))%string. rewrite last_char_app.
    destruct (join_with "/" (y :: l)) eqn:X; [discriminate|]. exact E.
Qed.

Lemma clean_free l : Forall clean l -> Forall (free_of slash) l.
Proof. intros F. eapply Forall_impl; [|exact F]. intros c (_ & _ & _ & X). exact X. Qed.

Definition full (p : string) : string := if isabs p then p else path_join (getcwd f) p.

Lemma full_abs p : isabs (full p) = true.
Proof.
  unfold full. destruct (isabs p) eqn:E; [exact E|]. unfold path_join. rewrite E. unfold getcwd.
  destruct (last_char_filled ("/" ++ join_with "/" (fcwd f))) as (b & X); [discriminate|]. rewrite X.
  destruct (Ascii.eqb b slash); reflexivity.
Qed.

Lemma full_comps p : norm_comps true [] (split_at slash (full p)) = norm_comps true (rev (if isabs p then [] else fcwd f)) (split_at slash p).
Proof.
  unfold full. destruct (isabs p) eqn:E; [reflexivity|]. unfold path_join. rewrite E. unfold getcwd.
  assert (FC : Forall clean (fcwd f)) by (apply (gf_clean f G), G).
  destruct (fcwd f) as [|c l] eqn:C.
  - cbn. destruct (split_at slash p); reflexivity.
  - destruct (last_char_join (c :: l)) as (a & X & Na); [discriminate|exact FC|].
    assert (Y : last_char ("/" ++ join_with "/" (c :: l)) = Some a).
    { cbn [append]. destruct (join_with "/" (c :: l)) eqn:Z; [discriminate|]. exact X. }
    rewrite Y. destruct (Ascii.eqb_spec a slash); [contradiction|].
    change (("/" ++ join_with "/" (c :: l)) ++ "/" ++ p)%string with (("/" ++ join_with "/" (c :: l)) ++ String slash p)%string.
    rewrite split_mid. change ("/" ++ join_with "/" (c :: l))%string with ("" ++ String slash (join_with "/" (c :: l)))%string.
    rewrite split_mid. assert (SJ : split_at slash (join_with "/" (c :: l)) = c :: l) by (apply (split_join slash); [discriminate|apply clean_free, FC]).
    rewrite SJ. transitivity (norm_comps true [] ((c :: l) ++ split_at slash p)); [reflexivity|]. rewrite (norm_clean (c :: l)) by exact FC. rewrite app_nil_r. reflexivity.
Qed.

Lemma leading_cases p : isabs p = true -> leading p = "/"%string \/ leading p = "//"%string.
Proof.
  destruct p as [|a [|b r]]; cbn; intros H; [discriminate|rewrite H; auto|]. rewrite H. destruct (_ && _); auto.
Qed.

Lemma abspath_ok p l : resolve f p = Some l -> Forall clean l /\ exists k, (k = "/" \/ k = "//")%string /\ abspath f p = (k ++ join_with "/" l)%string.
Proof.
  unfold resolve. intros W.
  assert (FC : Forall clean (if isabs p then [] else fcwd f)) by (destruct (isabs p); [constructor|apply (gf_clean f G), G]).
  destruct (walk_norm _ _ l FC (split_comps_free slash p) W) as [N F]. split; [exact F|].
  unfold abspath. fold (full p). unfold normpath. rewrite (full_abs p), (full_comps p), N.
  pose proof (full_abs p) as A. destruct (full p) as [|a r] eqn:E; [discriminate|]. cbn [String.eqb].
  destruct (leading_cases _ A) as [-> | ->]; (eexists; split; [|reflexivity]; auto).
Qed.

Lemma all_slashes_app s t : all_slashes (s ++ t)%string = all_slashes s && all_slashes t.
Proof. induction s as [|a s IH]; [reflexivity|]. cbn. rewrite IH. apply andb_assoc. Qed.

Lemma rev_string_app s t : rev_string (s ++ t)%string "" = (rev_string t "" ++ rev_string s "")%string.
Proof.
  apply list_ascii_inj. rewrite list_ascii_app, !rev_string_list, list_ascii_app. cbn. rewrite !app_nil_r. apply rev_app_distr.
Qed.

Lemma rev_string_last s a : last_char s = Some a -> exists r, rev_string s "" = String a r.
Proof.
  intros H. assert (X : exists t, s = (t ++ String a "")%string).
  { revert H. induction s as [|b s IH]; [discriminate|]. intros H. destruct s as [|c s].
    - cbn in H. injection H as ->. exists ""%string. reflexivity.
    - destruct (IH H) as (t & ->). exists (String b t). reflexivity. }
  destruct X as (t & ->). rewrite rev_string_app. cbn. eexists. reflexivity.
Qed.

Lemma rev_string_twice s : rev_string (rev_string s "") "" = s.
Proof. apply list_ascii_inj. rewrite !rev_string_list. cbn. rewrite !app_nil_r. apply rev_involutive. Qed.

(** The components of the directory of an absolute path, without empty ones. *)
Lemma dirname_ok k l c : k = "/"%string \/ k = "//"%string -> Forall clean (l ++ [c]) ->
  exists es, Forall (fun e => e = ""%string) es /\ isabs (dirname (k ++ join_with "/" (l ++ [c]))) = true /\
    (l = [] -> split_at slash (dirname (k ++ join_with "/" (l ++ [c]))) = es) /\
    (l <> [] -> split_at slash (dirname (k ++ join_with "/" (l ++ [c]))) = es ++ l).
Proof.
  intros K F. set (p := (k ++ join_with "/" (l ++ [c]))%string).
  set (es0 := if String.eqb k "/" then [""%string] else [""%string; ""%string]).
  assert (E0 : Forall (fun e => e = ""%string) es0) by (destruct K as [-> | ->]; repeat constructor).
  assert (S0 : split_at slash p = es0 ++ l ++ [c]).
  { assert (X : split_at slash (join_with "/" (l ++ [c])) = l ++ [c]).
    { apply (split_join slash); [destruct l; discriminate|apply clean_free, F]. }
    unfold p. destruct K as [-> | ->]; cbn [append split_at es0 String.eqb]; change (Ascii.eqb "/" slash) with true; cbn [app]; rewrite X; reflexivity. }
  assert (R0 : removelast (split_at slash p) = es0 ++ l) by (rewrite S0, app_assoc, removelast_last; reflexivity).
  assert (N0 : es0 ++ l <> []) by (destruct K as [-> | ->]; discriminate).
  assert (D0 : dirname p = let hd := (join_with "/" (es0 ++ l) ++ "/")%string in
            if all_slashes hd then hd else rev_string (drop_slashes (rev_string hd "")) "").
  { unfold dirname. rewrite R0. destruct (es0 ++ l) eqn:X; [contradiction|reflexivity]. }
  apply Forall_app in F. destruct F as [F _].
  assert (FE : Forall (free_of slash) es0) by (destruct K as [-> | ->]; repeat constructor; intros []).
  destruct l as [|y l].
  - rewrite app_nil_r in D0. exists (es0 ++ [""%string]). split; [apply Forall_app; split; [exact E0|repeat constructor]|].
    assert (D1 : dirname p = k) by (rewrite D0; unfold es0; clear -K; destruct K as [-> | ->]; reflexivity).
    rewrite D1. unfold es0. clear -K. destruct K as [-> | ->]; (split; [reflexivity|]); split; intros X; try contradiction; reflexivity.
  - exists es0. split; [exact E0|].
    destruct (last_char_join (y :: l)) as (a & La & Na); [discriminate|exact F|].
    assert (LJ : last_char (join_with "/" (es0 ++ y :: l)) = Some a).
    { change "/"%string with (String slash "") at 1. rewrite join_app by (discriminate || (destruct K as [-> | ->]; discriminate)).
      rewrite last_char_app. cbn [last_char]. change (String slash "") with "/"%string. destruct (join_with "/" (y :: l)) eqn:Z; [discriminate|]. exact La. }
    assert (DN : dirname p = join_with "/" (es0 ++ y :: l)).
    { rewrite D0. cbv zeta. rewrite all_slashes_app.
      assert (AS : all_slashes (join_with "/" (es0 ++ y :: l)) = false).
      { apply last_char_in in LJ. revert LJ. generalize (join_with "/" (es0 ++ y :: l)). intros s H.
        induction s as [|b s IH]; [destruct H|]. cbn. destruct H as [->|H].
        - destruct (Ascii.eqb_spec a slash); [contradiction|reflexivity].
        - rewrite IH by exact H. apply andb_false_r. }
      rewrite AS. cbn [andb]. rewrite rev_string_app. cbn [rev_string append drop_slashes]. change (Ascii.eqb "/" slash) with true. cbv iota.
      destruct (rev_string_last _ _ LJ) as (r & Er). rewrite Er at 1. cbn [drop_slashes].
      destruct (Ascii.eqb_spec a slash); [contradiction|]. rewrite <- Er. apply rev_string_twice. }
    rewrite DN. split; [|split; [discriminate|intros _; apply (split_join slash); [exact N0|]; apply Forall_app; split; [exact FE|apply clean_free, F]]].
    destruct K as [-> | ->]; reflexivity.
Qed.

Lemma walk_empties es : forall at_ cs, is_dir f at_ = true -> Forall (fun e => e = ""%string) es -> walk f at_ (es ++ cs) = walk f at_ cs.
Proof.
  induction es as [|e es IH]; intros at_ cs D F; [reflexivity|]. apply Forall_cons_iff in F. destruct F as [-> F]. cbn. rewrite D. apply IH; assumption.
Qed.

(** A file named relative to the directory of the specification. *)
Lemma beside p l c c' : resolve f p = Some (l ++ [c]) -> is_dir f l = true -> clean c' -> resolve f (spec_path f p c') = Some (l ++ [c']).
Proof.
  intros R D Cc. destruct (abspath_ok p _ R) as (F & k & K & E). unfold spec_path.
  assert (A : isabs c' = false).
  { destruct Cc as (_ & _ & _ & X). destruct c' as [|a s]; [reflexivity|]. cbn. destruct (Ascii.eqb_spec a slash) as [->|]; [|reflexivity].
    destruct X. left. reflexivity. }
  rewrite A, E. destruct (dirname_ok k l c K F) as (es & ES & AB & D1 & D2). set (dn := dirname _) in *.
  unfold resolve. replace (isabs (dn ++ "/" ++ c')) with true by (destruct dn; [discriminate|symmetry; exact AB]).
  change ("/" ++ c')%string with (String slash c'). rewrite split_mid, (split_at_free slash c') by apply Cc.
  destruct l as [|y l].
  - rewrite D1 by reflexivity. rewrite walk_empties by (reflexivity || exact ES). apply (walk_to [] c' D Cc).
  - rewrite D2 by discriminate. rewrite <- app_assoc, walk_empties by (reflexivity || exact ES). apply (walk_to _ c' D Cc).
Qed.

(** A file in a directory. *)
Lemma directory_dir path l : directory f path l -> is_dir f l = true.
Proof.
  intros [[->|(p & ->)] R]; unfold resolve in R.
  - cbn in R. rewrite (gf_cwd f G) in R. injection R as <-. apply G.
  - change (p ++ "/")%string with (p ++ String slash "")%string in R. rewrite split_mid in R. cbn [split_at] in R.
    eapply walk_end; [|exact R]. destruct (isabs _); [reflexivity|apply G].
Qed.

Lemma directory_file path l c : directory f path l -> clean c -> resolve f (path ++ c) = Some (l ++ [c]).
Proof.
  intros H Cc. pose proof (directory_dir path l H) as D. destruct H as [P R]. unfold resolve in *.
  destruct (clean_flags c Cc) as [E1 E2].
  assert (A : isabs c = false).
  { destruct Cc as (_ & _ & _ & X). destruct c as [|a s]; [reflexivity|]. cbn. destruct (Ascii.eqb_spec a slash) as [->|]; [|reflexivity].
    destruct X. left. reflexivity. }
  destruct P as [->|(p & ->)].
  - cbn in R. cbn [append]. rewrite A, (split_at_free slash c) by apply Cc. rewrite (gf_cwd f G) in R. injection R as <-.
    cbn [walk]. rewrite D, E1, E2. reflexivity.
  - assert (AB : isabs ((p ++ "/") ++ c) = isabs (p ++ "/")) by (destruct p; reflexivity).
    rewrite AB. rewrite <- sapp_assoc. change ("/" ++ c)%string with (String slash c). rewrite split_mid, (split_at_free slash c) by apply Cc.
    change (p ++ "/")%string with (p ++ String slash "")%string in R |- *. rewrite split_mid in R. cbn [split_at] in R.
    rewrite walk_app in R |- *. destruct (walk f _ (split_at slash p)) as [l'|]; [|discriminate]. cbn [walk] in R |- *.
    destruct (is_dir f l'); [|discriminate]. cbn in R. injection R as <-. rewrite E1, E2. reflexivity.
Qed.

End Walk.

Lemma resolve_same f f' p : fdirs f' = fdirs f -> fcwd f' = fcwd f -> resolve f' p = resolve f p.
Proof.
  intros A B. unfold resolve. rewrite B.
  assert (W : forall cs at_, walk f' at_ cs = walk f at_ cs); [|apply W].
  induction cs as [|c cs IH]; intros at_; [reflexivity|]. cbn. unfold is_dir at 1 2. rewrite A, !IH. reflexivity.
Qed.

Lemma is_dir_same f f' l : fdirs f' = fdirs f -> is_dir f' l = is_dir f l.
Proof. intros A. unfold is_dir. rewrite A. reflexivity. Qed.

Lemma good_fs_same f f' : fdirs f' = fdirs f -> fcwd f' = fcwd f -> good_fs f -> good_fs f'.
Proof.
  intros A B [U C W]. constructor.
  - intros l c. rewrite !(is_dir_same f f' _ A). apply U.
  - intros l. rewrite !(is_dir_same f f' _ A). apply C.
  - rewrite B, (is_dir_same f f' _ A). exact W.
Qed.

Lemma loc_eq_true a b : loc_eq a b = true <-> a = b.
Proof. unfold loc_eq. destruct (list_eq_dec string_dec a b); split; congruence. Qed.

Lemma file_get_put l c d k : file_get k (file_put l c d) = if loc_eq k l then Some c else file_get k d.
Proof.
  induction d as [|(k', c') d IH]; cbn; [reflexivity|]. destruct (loc_eq l k') eqn:E; cbn.
  - apply loc_eq_true in E. subst k'. destruct (loc_eq k l); reflexivity.
  - rewrite IH. destruct (loc_eq k k') eqn:E1; [|reflexivity]. destruct (loc_eq k l) eqn:E2; [|reflexivity].
    apply loc_eq_true in E1, E2. subst. assert (X : loc_eq k' k' = true) by (apply loc_eq_true; reflexivity). congruence.
Qed.

(** ** Names of the three files *)
Lemma slen_app s t : String.length (s ++ t)%string = String.length s + String.length t.
Proof. induction s as [|a s IH]; [reflexivity|]. cbn. rewrite IH. reflexivity. Qed.

Lemma clean_name name s : ~ In slash (list_ascii_of_string name) -> In s suffixes -> clean (name ++ s)%string.
Proof.
  intros N I. assert (L : 3 <= String.length (name ++ s)%string).
  { rewrite slen_app. repeat (destruct I as [<-|I]; [cbn; lia|]). destruct I. }
  repeat split; try (intros E; rewrite E in L; cbn in L; lia).
  rewrite list_ascii_app. intros X. apply in_app_or in X. destruct X as [X|X]; [exact (N X)|].
  repeat (destruct I as [<-|I]; [cbn in X; repeat (destruct X as [X|X]; [discriminate|]); destruct X|]). destruct I.
Qed.

Lemma sapp_inj n s t : (n ++ s = n ++ t)%string -> s = t.
Proof. induction n as [|a n IH]; [auto|]. cbn. intros H. injection H. exact IH. Qed.

Lemma loc_neq (l : loc) name s t : s <> t -> loc_eq (l ++ [(name ++ s)%string]) (l ++ [(name ++ t)%string]) = false.
Proof.
  intros N. destruct (loc_eq _ _) eqn:E; [|reflexivity]. apply loc_eq_true in E. apply app_inv_head in E. injection E as E.
  apply sapp_inj in E. contradiction.
Qed.

Lemma loc_refl l : loc_eq l l = true.
Proof. apply loc_eq_true. reflexivity. Qed.

(** ** Networks in a longer heap *)
Lemma right_shape_app h rest g n : consistent (mkW h g) -> right_shape (mkW (h ++ rest) g) n = right_shape (mkW h g) n.
Proof.
  intros C. unfold right_shape. f_equal. apply map_ext. intros u. unfold size. cbn [wnet whp].
  destruct (dget u (lookup g)) as [i|] eqn:D; [|reflexivity]. destruct (co_named _ C u i D) as (m & Hm & _). cbn [whp] in Hm.
  rewrite nth_error_app1 by (apply nth_error_Some; congruence). reflexivity.
Qed.

Lemma reloaded_app meta w h g rest : reloaded meta w (mkW h g) -> reloaded meta w (mkW (h ++ rest) g).
Proof.
  intros [R1 R2 R3 R4 R5 R6 R7 R8]. constructor; try assumption.
  - intros v i n H. destruct (R5 v i n H) as (i' & n' & H' & X). exists i', n'. split; [|exact X].
    apply (proj2 (holds_app h rest g v i' n' R7)), H'.
  - apply consistent_app, R7.
  - intros v i n H. apply (holds_app h rest g v i n R7) in H. rewrite right_shape_app by exact R7. exact (R8 v i n H).
Qed.

Lemma add_all ts : forall d, (forall v p, In (v, p) ts -> in_net p (db0 d) = true /\ in_net p (dtwo d) = true /\ in_net v (dtwo d) = true) ->
  add_transitions d ts = (mkDbn (db0 d) (dtwo d) (dtrans d ++ ts), Ok tt).
Proof.
  induction ts as [|(v, p) ts IH]; intros d H.
  - cbn. rewrite app_nil_r. destruct d; reflexivity.
  - cbn [add_transitions]. unfold add_transition. destruct (H v p (or_introl eq_refl)) as (A & B & D). rewrite A, B, D. cbn [negb].
    rewrite IH by (cbn [db0 dtwo]; intros; apply H; right; assumption). cbn [db0 dtwo dtrans]. rewrite <- app_assoc. reflexivity.
Qed.

Lemma in_net_reloaded meta w w' v : consistent w -> reloaded meta w w' -> In v (dkeys (lookup (wnet w))) -> in_net v (wnet w') = true.
Proof.
  intros C R I. apply dmem_In. rewrite (rl_graph _ _ _ R). destruct (dget_key v _ I) as (i & D).
  apply (co_same w C) in D. exact (dget_Some_key _ _ _ D).
Qed.

(** ** The round trip *)
Section RoundTrip.
Context {FT : FloatText}.

Definition same_place (f f' : fs) : Prop := fdirs f' = fdirs f /\ ffiles f' = ffiles f.

Theorem dbn_round_trip ign_w h d f path name l :
  good_fs f -> directory f path l -> ~ In slash (list_ascii_of_string name) -> free_targets f l name ->
  inv (mkW h (db0 d)) -> printable_net (negb ign_w) (mkW h (db0 d)) -> filled (mkW h (db0 d)) ->
  inv (mkW h (dtwo d)) -> printable_net (negb ign_w) (mkW h (dtwo d)) -> filled (mkW h (dtwo d)) -> lawful d ->
  exists f', dbn_write ign_w h d path name f = (f', Ok tt) /\
    fdirs f' = fdirs f /\ fcwd f' = fcwd f /\
    (forall k, ~ In k (targets l name) -> file_get k (ffiles f') = file_get k (ffiles f)) /\
    resolve f' (path ++ name ++ ".conf") = Some (l ++ [(name ++ ".conf")%string]) /\
    forall f2 filename ign_r h0, good_fs f2 -> same_place f' f2 -> resolve f2 filename = Some (l ++ [(name ++ ".conf")%string]) -> sound_heap h0 ->
      exists h1 d', dbn_parse ign_r h0 filename f2 = (h0 ++ h1, Ok d') /\
        reloaded_dbn (negb (ign_w || ign_r)) h d (h0 ++ h1) d'.
Proof.
  intros G D N FR I0 P0 F0 I2 P2 F2 LW.
  set (n0 := (name ++ "-b0.xbif")%string). set (n2 := (name ++ "-2tbn.xbif")%string). set (nc := (name ++ ".conf")%string).
  assert (C0 : clean n0) by (apply clean_name; cbn; auto). assert (C2 : clean n2) by (apply clean_name; cbn; auto).
  assert (CC : clean nc) by (apply clean_name; cbn; auto).
  assert (DL := directory_dir f G path l D).
  assert (R0 := directory_file f G path l n0 D C0). assert (R2 := directory_file f G path l n2 D C2).
  assert (RC := directory_file f G path l nc D CC).
  unfold free_targets, targets, suffixes in FR. cbn [map] in FR. fold n0 n2 nc in FR.
  apply Forall_cons_iff in FR. destruct FR as [Q0 FR]. apply Forall_cons_iff in FR. destruct FR as [Q2 FR]. apply Forall_cons_iff in FR. destruct FR as [QC _].
  destruct (round_trip ign_w ign_w _ [] I0 ltac:(intros [|] ? X; discriminate) P0 F0) as (t0 & _ & _ & T0 & _).
  destruct (round_trip ign_w ign_w _ [] I2 ltac:(intros [|] ? X; discriminate) P2 F2) as (t2 & _ & _ & T2 & _).
  set (f1 := mkFs (fdirs f) (file_put (l ++ [n0]) (Doc t0) (ffiles f)) (fcwd f)).
  set (f2 := mkFs (fdirs f) (file_put (l ++ [n2]) (Doc t2) (ffiles f1)) (fcwd f)).
  set (f3 := mkFs (fdirs f) (file_put (l ++ [nc]) (Conf n0 n2 (dtrans d)) (ffiles f2)) (fcwd f)).
  exists f3. split; [|split; [reflexivity|split; [reflexivity|split; [|split]]]].
  - unfold dbn_write, xmlbif_write. rewrite T0, T2. fold n0 n2 nc. unfold write_file.
    rewrite R0, Q0. fold f1. rewrite (resolve_same f f1 _ eq_refl eq_refl), R2. change (is_dir f1 (l ++ [n2])) with (is_dir f (l ++ [n2])). rewrite Q2.
    change (fdirs f1) with (fdirs f). change (fcwd f1) with (fcwd f). fold f2.
    rewrite (resolve_same f f2 _ eq_refl eq_refl), RC. change (is_dir f2 (l ++ [nc])) with (is_dir f (l ++ [nc])). rewrite QC. reflexivity.
  - intros k K. cbn [ffiles f3 f2 f1]. rewrite !file_get_put. unfold targets, suffixes in K. cbn [map] in K. fold n0 n2 nc in K.
    destruct (loc_eq k (l ++ [nc])) eqn:E1; [apply loc_eq_true in E1; subst k; exfalso; apply K; cbn; auto|].
    destruct (loc_eq k (l ++ [n2])) eqn:E2; [apply loc_eq_true in E2; subst k; exfalso; apply K; cbn; auto|].
    destruct (loc_eq k (l ++ [n0])) eqn:E3; [apply loc_eq_true in E3; subst k; exfalso; apply K; cbn; auto|]. reflexivity.
  - fold nc. rewrite (resolve_same f f3 _ eq_refl eq_refl). exact RC.
  - fold nc. intros f4 filename ign_r h0 G4 [A4 B4] R4 SH. cbn [fdirs f3] in A4.
    assert (DL4 : is_dir f4 l = true) by (rewrite (is_dir_same f f4 l A4); exact DL).
    assert (S0 := beside f4 G4 filename l nc n0 R4 DL4 C0). assert (S2 := beside f4 G4 filename l nc n2 R4 DL4 C2).
    assert (GC : file_get (l ++ [nc]) (ffiles f4) = Some (Conf n0 n2 (dtrans d))).
    { rewrite B4. cbn [ffiles f3]. rewrite file_get_put, loc_refl. reflexivity. }
    assert (G2 : file_get (l ++ [n2]) (ffiles f4) = Some (Doc t2)).
    { rewrite B4. cbn [ffiles f3 f2]. rewrite !file_get_put, loc_refl. unfold nc, n2. rewrite loc_neq by discriminate. reflexivity. }
    assert (G0 : file_get (l ++ [n0]) (ffiles f4) = Some (Doc t0)).
    { rewrite B4. cbn [ffiles f3 f2 f1]. rewrite !file_get_put, loc_refl. unfold nc, n2, n0. rewrite !loc_neq by discriminate. reflexivity. }
    destruct (round_trip ign_w ign_r _ h0 I0 SH P0 F0) as (t0' & h1 & g0 & X0 & Y0 & J0 & L0).
    assert (t0' = t0) by congruence. subst t0'.
    destruct (round_trip ign_w ign_r _ (h0 ++ h1) I2 (iv_s _ J0) P2 F2) as (t2' & h2 & g2 & X2 & Y2 & J2 & L2).
    assert (t2' = t2) by congruence. subst t2'.
    exists (h1 ++ h2), (mkDbn g0 g2 (dtrans d)). split.
    + unfold dbn_parse, read_file. rewrite R4, GC, (is_dir_same f f4 _ A4), QC. unfold xmlbif_parse, read_file.
      rewrite S0, G0, (is_dir_same f f4 _ A4), Q0, Y0. rewrite S2, G2, (is_dir_same f f4 _ A4), Q2, Y2.
      rewrite app_assoc. f_equal. unfold new_dbn. cbn [add_transitions]. cbn [rbind]. rewrite add_all; [reflexivity|].
      cbn [db0 dtwo]. intros v p I. destruct (LW v p I) as (Y & Z & V).
      split; [exact (in_net_reloaded _ _ _ p (iv_c _ I0) L0 Y)|split; [exact (in_net_reloaded _ _ _ p (iv_c _ I2) L2 Z)|exact (in_net_reloaded _ _ _ v (iv_c _ I2) L2 V)]].
    + rewrite app_assoc. constructor; cbn [db0 dtwo dtrans]; [apply reloaded_app, L0|exact L2|reflexivity].
Qed.

End RoundTrip.

(** ** Two networks in one heap *)
Lemma inv_app h rest g : inv (mkW h g) -> sound_heap rest -> inv (mkW (h ++ rest) g).
Proof.
  intros [C F S] SR. constructor.
  - apply consistent_app, C.
  - intros v i n H. apply (holds_app h rest g v i n C) in H. rewrite right_shape_app by exact C. exact (F v i n H).
  - cbn [whp] in *. intros i n H K. destruct (Nat.lt_ge_cases i (length h)) as [L|L].
    + rewrite nth_error_app1 in H by exact L. exact (S i n H K).
    + rewrite nth_error_app2 in H by exact L. exact (SR _ n H K).
Qed.

Lemma sound_shift k n : sound n -> sound (shift_node k n).
Proof.
  intros [A B]. split; [exact A|]. intros E. destruct (B E) as [P T]. split; [|exact T]. cbn. rewrite P. reflexivity.
Qed.

Lemma inv_shift h0 h g : inv (mkW h g) -> sound_heap h0 -> inv (mkW (h0 ++ map (shift_node (length h0)) h) (shift_net (length h0) g)).
Proof.
  intros [C F S] S0. set (k := length h0). constructor.
  - apply consistent_shift, C.
  - intros v i n [D H]. cbn [wnet whp shift_net lookup] in D, H. rewrite dget_shift in D. destruct (dget v (lookup g)) as [j|] eqn:Dj; [|discriminate].
    cbn in D. injection D as <-. unfold k in H. rewrite nth_shifted in H. destruct (nth_error h j) as [m|] eqn:Hm; [|discriminate]. cbn in H. injection H as <-.
    destruct (F v j m (conj Dj Hm)) as [K T]. split; [exact K|]. cbn [shift_node with_parents ncpd]. rewrite T. unfold right_shape. cbn. f_equal.
    apply map_ext. intros u. unfold size. cbn [wnet whp lookup shift_net]. rewrite dget_shift. destruct (dget u (lookup g)) as [o|]; [|reflexivity]. cbn.
    unfold k. rewrite nth_shifted. destruct (nth_error h o); reflexivity.
  - cbn [whp] in *. intros i n H K. destruct (Nat.lt_ge_cases i (length h0)) as [L|L].
    + rewrite nth_error_app1 in H by exact L. exact (S0 i n H K).
    + rewrite nth_error_app2 in H by exact L. rewrite nth_error_map in H. destruct (nth_error h _) as [m|] eqn:Hm; [|discriminate]. cbn in H. injection H as <-.
      apply sound_shift. apply (S _ m Hm). exact K.
Qed.

Lemma side_inv w0 w1 tr : inv w0 -> inv w1 ->
  inv (mkW (fst (side_by_side w0 w1 tr)) (db0 (snd (side_by_side w0 w1 tr)))) /\
  inv (mkW (fst (side_by_side w0 w1 tr)) (dtwo (snd (side_by_side w0 w1 tr)))).
Proof.
  intros I0 I1. destruct w0 as [h0 g0], w1 as [h g]. cbn [side_by_side fst snd db0 dtwo whp wnet]. split.
  - apply inv_app; [exact I0|]. intros i n H K. rewrite nth_error_map in H. destruct (nth_error h i) as [m|] eqn:Hm; [|discriminate].
    cbn in H. injection H as <-. apply sound_shift, (iv_s _ I1 i m Hm), K.
  - apply inv_shift; [exact I1|exact (iv_s _ I0)].
Qed.
