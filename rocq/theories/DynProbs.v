(** marginal_probabilities as a dict from values to probabilities. *)
From Verif Require Import Base BaseFacts NDArray NDArrayFacts Factor FactorFacts Exact Spec SpecFacts Order OrderSpec JoinTree TreeSpec JTTop
  Node Network Dynamic DynSpec DynPrior DynSoft EvForms.

Lemma reports_line b f v P : wf_bn b -> reports b f [v] P -> data (pot f) = map (fun x => P [(v, x)]) (values_of b v).
Proof.
  intros WB R. assert (O := reports_order1 b f v _ R). destruct R as (H1 & H2 & H3 & H4 & H5 & H6 & H7).
  rewrite O in *. cbn in H5. rewrite H5 in H6. cbn in H6. rewrite Nat.mul_1_r in H6.
  apply nth_ext with (d := 0%Qc) (d' := 0%Qc); [rewrite map_length; exact H6|].
  intros i Hi. rewrite H6 in Hi. assert (ND := dom_nodup b WB v).
  rewrite (nth_indep (map _ _) 0%Qc (P [(v, "")])) by (rewrite map_length; exact Hi).
  rewrite (map_nth (fun x => P [(v, x)])). rewrite <- H7.
  - unfold potential_at. rewrite O. cbn [map]. rewrite (H3 v (or_introl eq_refl)).
    unfold look. cbn [dget]. rewrite eqb_refl_s. unfold aget. rewrite H5. cbn. rewrite position_idx.
    rewrite idx_nth by assumption. f_equal. lia.
  - split; [cbn; constructor; [tauto|constructor]|]. split; [reflexivity|].
    intros w x [E|[]]. injection E as <- <-. apply nth_In, Hi.
Qed.

Lemma combine_map {A B} (g : A -> B) l : combine l (map g l) = map (fun x => (x, g x)) l.
Proof. induction l as [|x l IH]; [reflexivity|]. cbn. rewrite IH. reflexivity. Qed.

Section Probs.
Context {SO : SetOrder}.

(** The dict has the values as keys, in their order, with the reported numbers. *)
Lemma probabilities_reported s b f v P : wf_bn b -> snd (dmarginals s [v]) = Ok f -> reports b f [v] P ->
  marginal_probabilities s v = (fst (dmarginals s [v]), Ok (map (fun x => (x, P [(v, x)])) (values_of b v))).
Proof.
  intros WB E R. unfold marginal_probabilities. destruct (dmarginals s [v]) as [s' r]. cbn in E. subst r. cbn [fst]. f_equal.
  assert (O := reports_order1 b f v _ R). assert (V := proj1 (proj2 (proj2 R)) v). rewrite O in V. unfold dget_err. rewrite (V (or_introl eq_refl)). cbn beta iota delta [rbind].
  rewrite (potential_whole b f [v] P R). cbn beta iota delta [rbind]. apply (f_equal Ok). rewrite (reports_line b f v P WB R), combine_map.
  assert (U := update_app (map (fun x => (x, P [(v, x)])) (values_of b v)) []). unfold dupdate in U. apply U.
  - unfold dkeys. rewrite map_map. cbn. rewrite map_id. apply dom_nodup, WB.
  - intros w _ [].
Qed.

(** Exceptions are those of [marginals]. *)
Lemma probabilities_fail s v x : snd (dmarginals s [v]) = Err x -> marginal_probabilities s v = (fst (dmarginals s [v]), Err x).
Proof. intros E. unfold marginal_probabilities. destruct (dmarginals s [v]) as [s' r]. cbn in E. now subst r. Qed.
End Probs.
