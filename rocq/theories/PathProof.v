(** What os.path.normpath gives denotes the same place and is in normal form. *)
From Coq Require Import Ascii.
From Verif Require Import Base BaseFacts NDArray Node Network Dynamic Xml IO IOText IOSpec IOProof Files FilesSpec FilesProof.

Lemma follow_app l1 : forall at_ l2, follow at_ (l1 ++ l2) = follow (follow at_ l1) l2.
Proof. induction l1 as [|c l1 IH]; intros at_ l2; [reflexivity|]. cbn. destruct (_ || _); [apply IH|]. destruct (String.eqb c ".."); apply IH. Qed.

(** Stacks of components as the loop builds them. *)
Fixpoint stacked (abs : bool) (acc : list string) : Prop :=
  match acc with
  | [] => True
  | c :: r => c <> ""%string /\ c <> "."%string /\ free_of slash c /\ (c = ".." -> abs = false /\ Forall (eq "..") r) /\ stacked abs r
  end.

Lemma stacked_tl abs acc : stacked abs acc -> stacked abs (tl acc).
Proof. destruct acc; cbn; tauto. Qed.

Lemma norm_follow abs cs : forall acc at_, stacked abs acc -> Forall (free_of slash) cs -> (abs = true -> at_ = []) ->
  exists out, norm_comps abs acc cs = rev out /\ stacked abs out /\ follow at_ (rev out) = follow (follow at_ (rev acc)) cs.
Proof.
  induction cs as [|c cs IH]; intros acc at_ ST FC RT.
  - exists acc. cbn. auto.
  - apply Forall_cons_iff in FC as [Fc FC]. cbn [norm_comps follow]. destruct (String.eqb c "" || String.eqb c ".") eqn:E1; [apply IH; auto|].
    apply orb_false_iff in E1 as [N1 N2]. apply String.eqb_neq in N1, N2. destruct (String.eqb c "..") eqn:E2.
    + apply String.eqb_eq in E2. subst c. cbn [negb orb]. destruct acc as [|d acc].
      * cbn [is_dotdot]. rewrite orb_false_r, andb_true_r. destruct abs; cbn [negb].
        -- rewrite (RT eq_refl). cbn [tl rev follow]. apply (IH [] [] I FC). auto.
        -- destruct (IH [".."%string] at_) as (out & E & S' & F); [cbn; repeat split; try assumption; discriminate||auto|exact FC|exact RT|]. exists out. auto.
      * cbn [is_dotdot]. rewrite andb_false_r. cbn [orb]. cbn in ST. destruct ST as (D1 & D2 & D3 & D4 & ST). destruct (String.eqb d "..") eqn:Ed.
        -- apply String.eqb_eq in Ed. subst d. destruct (D4 eq_refl) as [-> FA].
           destruct (IH (".." :: ".." :: acc)%string at_) as (out & E & S' & F); [cbn; repeat split; auto|exact FC|exact RT|].
           exists out. split; [exact E|]. split; [exact S'|]. rewrite F. cbn [rev]. rewrite !follow_app. reflexivity.
        -- cbn [tl]. destruct (IH acc at_ ST FC RT) as (out & E & S' & F). exists out. split; [exact E|]. split; [exact S'|]. rewrite F.
           cbn [rev]. rewrite follow_app. cbn [follow]. apply String.eqb_neq in D1, D2. rewrite D1, D2, Ed. cbn [orb]. now rewrite removelast_last.
    + cbn [negb orb]. apply String.eqb_neq in E2.
      destruct (IH (c :: acc) at_) as (out & E & S' & F); [cbn; repeat split; auto; contradiction|exact FC|exact RT|].
      exists out. split; [exact E|]. split; [exact S'|]. rewrite F. cbn [rev]. rewrite follow_app. cbn [follow].
      apply String.eqb_neq in N1, N2, E2. rewrite N1, N2, E2. reflexivity.
Qed.

Lemma stacked_free abs acc : stacked abs acc -> Forall (free_of slash) acc.
Proof. induction acc as [|c acc IH]; cbn; constructor; [tauto|apply IH; tauto]. Qed.

Lemma stacked_normal abs acc : stacked abs acc -> normal_comps abs (rev acc).
Proof.
  induction acc as [|c acc IH]; intros ST.
  - exists 0, []. repeat split; auto.
  - cbn in ST. destruct ST as (N1 & N2 & F & D & ST). destruct (IH ST) as (n & l & E & A & C). cbn [rev]. rewrite E.
    destruct (string_dec c "..") as [->|N3].
    + destruct (D eq_refl) as [-> FA]. assert (l = []).
      { destruct l as [|x l] using rev_ind; [reflexivity|]. rewrite app_assoc in E. apply (f_equal (@rev _)) in E. rewrite rev_involutive, rev_app_distr in E. cbn in E.
        subst acc. apply Forall_cons_iff in FA as [<- _]. apply Forall_app in C as [_ C]. apply Forall_cons_iff in C as [(_ & _ & X & _) _]. congruence. }
      subst l. exists (S n), []. split; [|split; [discriminate|constructor]]. rewrite !app_nil_r. clear. induction n as [|n IH]; [reflexivity|]. cbn in *. now rewrite IH.
    + exists n, (l ++ [c]). split; [now rewrite app_assoc|]. split; [exact A|]. apply Forall_app. split; [exact C|]. constructor; [repeat split; assumption|constructor].
Qed.

Lemma follow_blank at_ l : follow at_ (""%string :: l) = follow at_ l.
Proof. reflexivity. Qed.

Lemma stacked_head out x l : stacked false out -> rev out = x :: l -> exists a r, x = String a r /\ a <> slash.
Proof.
  intros ST E. assert (F := stacked_free _ _ ST). assert (X : forall x, In x out -> x <> ""%string).
  { clear F E. induction out as [|c out IH]; intros y []; cbn in ST; [subst; tauto|apply IH; tauto]. }
  assert (Hx : In x out) by (apply in_rev; rewrite E; now left).
  assert (Fx := proj1 (Forall_forall _ _) F x Hx). destruct x as [|a x]; [destruct (X _ Hx eq_refl)|].
  exists a, x. split; [reflexivity|]. intros ->. apply Fx. now left.
Qed.

Lemma leading_abs p : isabs p = false -> leading p = ""%string.
Proof. destruct p as [|a [|c r]]; cbn; intros H; try reflexivity; rewrite H; reflexivity. Qed.

Lemma follow_join abs out : stacked abs out -> forall at_, follow at_ (split_at slash (join_with "/" (rev out))) = follow at_ (rev out).
Proof.
  intros ST at_. destruct (rev out) as [|x l] eqn:E; [reflexivity|]. 
  assert (SJ : split_at slash (join_with "/" (x :: l)) = x :: l); [|now rewrite SJ].
  apply (split_join slash); [discriminate|]. rewrite <- E. apply Forall_rev, (stacked_free _ _ ST).
Qed.

Theorem normpath_same p at_ : place at_ (normpath p) = place at_ p /\ isabs (normpath p) = isabs p /\ normal (normpath p).
Proof.
  unfold normpath. destruct (String.eqb p "") eqn:E0.
  { apply String.eqb_eq in E0. subst p. split; [reflexivity|]. split; [reflexivity|left; reflexivity]. }
  destruct (norm_follow (isabs p) (split_at slash p) [] (if isabs p then [] else at_) I (split_comps_free slash p)) as (out & E & ST & FO).
  { intros ->. reflexivity. }
  rewrite E. assert (NC := stacked_normal _ _ ST). cbn [rev follow] in FO. unfold place.
  destruct (isabs p) eqn:A.
  - assert (NX : exists k, (k = "/" \/ k = "//")%string /\ leading p = k) by (destruct (leading_cases p A) as [-> | ->]; eauto).
    destruct NX as (k & Hk & ->).
    assert (X : String.eqb (k ++ join_with "/" (rev out)) "" = false) by (destruct Hk as [-> | ->]; reflexivity).
    rewrite X. assert (Y : isabs (k ++ join_with "/" (rev out))%string = true) by (destruct Hk as [-> | ->]; reflexivity).
    rewrite Y. split; [|split; [reflexivity|right; exists k, (rev out); auto]]. rewrite <- FO.
    rewrite <- (follow_join true out ST []). destruct Hk as [-> | ->]; reflexivity.
  - rewrite (leading_abs p A). cbn [append]. destruct (rev out) as [|x l] eqn:Er.
    { cbn. split; [exact FO|]. split; [reflexivity|left; reflexivity]. }
    destruct (stacked_head out x l ST Er) as (a & r & -> & Na).
    assert (X : exists r', join_with "/" (String a r :: l) = String a r') by (destruct l; cbn; eauto).
    destruct X as (r' & X). assert (FJ := follow_join false out ST at_). rewrite Er in FJ. rewrite X in FJ |- *. cbn [String.eqb isabs].
    assert (NA : Ascii.eqb a slash = false) by (destruct (Ascii.eqb_spec a slash); congruence). rewrite NA.
    split; [rewrite FJ; exact FO|]. split; [reflexivity|]. right. exists ""%string, (String a r :: l). split; [symmetry; exact X|]. left.
    split; [reflexivity|]. split; [discriminate|exact NC].
Qed.
