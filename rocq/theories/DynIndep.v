(** Observed variables are taken over exactly: enough hard evidence makes the
    variables taken over independent. *)
From Verif Require Import Base BaseFacts NDArray Factor Exact Spec SpecFacts Order JoinTree Node Network NetSpec TreeSpec Dynamic DynSpec DynPure.

Lemma qprod_nought l : In 0%Qc l -> qprod l = 0%Qc.
Proof. induction l as [|x l IH]; intros []; cbn [qprod]; [subst; ring|rewrite IH by assumption; ring]. Qed.
Lemma qprod_ones {A} (f : A -> Qc) l : (forall x, In x l -> f x = 1%Qc) -> qprod (map f l) = 1%Qc.
Proof. induction l as [|x l IH]; intros H; cbn [map qprod]; [reflexivity|]. rewrite IH by (intros y I; apply H; right; exact I). rewrite (H x) by (left; reflexivity). ring. Qed.
Lemma qsum_noughts {A} (f : A -> Qc) l : (forall x, In x l -> f x = 0%Qc) -> qsum (map f l) = 0%Qc.
Proof. induction l as [|x l IH]; intros H; cbn [map qsum]; [reflexivity|]. rewrite IH by (intros y I; apply H; right; exact I). rewrite (H x) by (left; reflexivity). ring. Qed.

Section Indep.
Variables b0 two : bn.
Variable trans : list (string * string).

Lemma evidence_zero b ev s p x : In p (bnames b) -> dget p ev = Some (Hard x) -> look s p <> x -> qprod (map (fun n => evidence_weight ev n s) (bnodes b)) = 0%Qc.
Proof.
  intros I D N. apply qprod_nought. unfold bnames in I. apply in_map_iff in I. destruct I as (n & <- & I). apply in_map_iff. exists n. split; [|exact I].
  unfold evidence_weight. rewrite D, (eqb_neq_s _ _ N). reflexivity.
Qed.

Lemma path_zero ev evs h p x : In p (bnames (slice_base b0 two (length evs))) -> dget p ev = Some (Hard x) -> look (hd [] h) p <> x ->
  path_weight b0 two trans (ev :: evs) h = 0%Qc.
Proof.
  intros I D N. destruct h as [|s h]; [destruct evs; reflexivity|]. cbn [hd] in N. destruct evs as [|e evs].
  - destruct h; [|cbn [path_weight]; ring]. cbn [path_weight]. unfold weight. rewrite (evidence_zero b0 ev s p x I D N). ring.
  - cbn [path_weight]. unfold step_weight. rewrite (evidence_zero two ev s p x I D N). ring.
Qed.

Theorem observed_factorised ev evs vp0 : NoDup trans -> In vp0 trans ->
  (forall vp, In vp trans -> In (snd vp) (bnames (slice_base b0 two (length evs)))) ->
  (forall vp, In vp trans -> vp = vp0 \/ exists x, dget (snd vp) ev = Some (Hard x)) ->
  factorised b0 two trans (ev :: evs).
Proof.
  intros ND I0 K O s Hs. unfold filtered.
  destruct (qeqb (filter_mass b0 two trans (ev :: evs) []) 0) eqn:Z.
  - apply qeqb_true in Z. rewrite Z. unfold Qcdiv. replace (/ 0)%Qc with 0%Qc by reflexivity. rewrite qprod_nought; [ring|]. apply in_map_iff. exists vp0. auto.
  - apply qeqb_false in Z. destruct (in_split _ _ I0) as (l1 & l2 & E). set (os := l1 ++ l2).
    assert (OS : forall vp, In vp os -> In vp trans /\ exists x, dget (snd vp) ev = Some (Hard x)).
    { intros vp I. assert (N : vp <> vp0). { intros ->. rewrite E in ND. apply NoDup_remove_2 in ND. contradiction. }
      assert (I' : In vp trans) by (rewrite E; unfold os in I; apply in_app_iff in I; apply in_app_iff; destruct I; [left|right; right]; assumption).
      split; [exact I'|]. destruct (O vp I') as [->|H]; [congruence|exact H]. }
    assert (P : Permutation trans (vp0 :: os)) by (rewrite E; symmetry; apply Permutation_middle).
    set (okb := fun vp : string * string => match dget (snd vp) ev with Some (Hard x) => String.eqb (look s (fst vp)) x | _ => false end).
    set (F := fun vp : string * string => (filter_mass b0 two trans (ev :: evs) [(snd vp, look s (fst vp))] / filter_mass b0 two trans (ev :: evs) [])%Qc).
    change (link_mass b0 two trans (ev :: evs) s / filter_mass b0 two trans (ev :: evs) [] = qprod (map F trans))%Qc.
    rewrite (qprod_perm _ _ (Permutation_map F P)). cbn [map qprod].
    assert (FO : forall h, follows trans s h = forallb (fun vp => String.eqb (look s (fst vp)) (look h (snd vp))) (vp0 :: os)).
    { intros h. unfold follows. apply eq_true_iff_eq. rewrite !forallb_forall. split; intros H vp I; apply H; [apply (Permutation_in _ (Permutation_sym P) I)|apply (Permutation_in _ P I)]. }
    destruct (forallb okb os) eqn:B.
    + rewrite forallb_forall in B.
      assert (ONE : qprod (map F os) = 1%Qc).
      { apply qprod_ones. intros vp I. destruct (OS vp I) as (I' & x & D). specialize (B vp I). unfold okb in B. rewrite D in B. apply String.eqb_eq in B. unfold F.
        assert (M : filter_mass b0 two trans (ev :: evs) [(snd vp, look s (fst vp))] = filter_mass b0 two trans (ev :: evs) []).
        { unfold filter_mass. rewrite !qsum_filter. apply qsum_map_ext. intros h _. unfold agrees. cbn [forallb fst snd]. destruct (String.eqb_spec (look (hd [] h) (snd vp)) (look s (fst vp))) as [_|N]; [reflexivity|].
          cbn [andb]. rewrite B in N. symmetry. exact (path_zero ev evs h (snd vp) x (K vp I') D N). }
        rewrite M. unfold Qcdiv. apply Qcmult_inv_r, Z. }
      rewrite ONE, Qcmult_1_r. unfold F. f_equal. unfold link_mass, filter_mass. rewrite !qsum_filter. apply qsum_map_ext. intros h _. rewrite FO. cbn [forallb]. unfold agrees. cbn [forallb fst snd].
      rewrite (String.eqb_sym (look s (fst vp0))). destruct (String.eqb (look (hd [] h) (snd vp0)) (look s (fst vp0))); cbn [andb]; [|reflexivity].
      destruct (forallb _ os) eqn:C; [reflexivity|]. apply not_true_iff_false in C. symmetry.
      destruct (Qc_eq_dec (path_weight b0 two trans (ev :: evs) h) 0) as [E0|N0]; [exact E0|]. destruct C. apply forallb_forall. intros vp I. destruct (OS vp I) as (I' & x & D). specialize (B vp I). unfold okb in B. rewrite D in B. apply String.eqb_eq in B.
      apply String.eqb_eq. rewrite B. destruct (String.eqb_spec (look (hd [] h) (snd vp)) x) as [<-|N]; [reflexivity|]. destruct N0. exact (path_zero ev evs h (snd vp) x (K vp I') D N).
    + assert (X : exists vp, In vp os /\ okb vp = false).
      { clear -B. induction os as [|vp os IH]; cbn in B; [discriminate|]. destruct (okb vp) eqn:E; [|exists vp; auto using in_eq]. destruct (IH B) as (vp' & I & H). exists vp'. auto using in_cons. }
      destruct X as (vp & I & H). destruct (OS vp I) as (I' & x & D). unfold okb in H. rewrite D in H. apply String.eqb_neq in H.
      assert (F0 : F vp = 0%Qc).
      { unfold F. replace (filter_mass b0 two trans (ev :: evs) [(snd vp, look s (fst vp))]) with 0%Qc; [unfold Qcdiv; ring|]. symmetry. unfold filter_mass. apply qsum_noughts. intros h Hh. apply filter_In in Hh. destruct Hh as [_ A].
        unfold agrees in A. cbn [forallb fst snd] in A. apply andb_true_iff in A. destruct A as [A _]. apply String.eqb_eq in A. apply (path_zero ev evs h (snd vp) x (K vp I') D). congruence. }
      rewrite (qprod_nought (map F os)) by (rewrite <- F0; apply in_map, I).
      replace (link_mass b0 two trans (ev :: evs) s) with 0%Qc; [unfold Qcdiv; ring|]. symmetry. unfold link_mass. apply qsum_noughts. intros h Hh. apply filter_In in Hh. destruct Hh as [_ A].
      rewrite FO in A. rewrite forallb_forall in A. specialize (A vp (or_intror I)). apply String.eqb_eq in A. apply (path_zero ev evs h (snd vp) x (K vp I') D). congruence.
Qed.
End Indep.
