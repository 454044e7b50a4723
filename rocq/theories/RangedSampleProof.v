(** Sampling in arithmetic of limited range is that of RoundedSample.v when the range
    suffices. *)
From Coq Require Import Field.
From Verif Require Import Base NDArray Factor Exact Spec BaseFacts NDArrayFacts FactorProofs SpecFacts Sampling LawCount LawForward
  Rounded RoundedSpec RoundedProof Ranged RangedSpec RangedProof RoundedSample RoundedSampleSpec RoundedSampleOne RoundedSampleChain RoundedSampleCount RangedSample RangedSampleSpec.

(** ** With the rounding of Rounded.v, the functions are those of RoundedSample.v. *)
Section Same.
Context {RD : Rounding} {AD : Adding}.
Lemma roulette_rnd values ws s u : roulette_with rnd values ws s u = rroulette values ws s u.
Proof. revert ws s. induction values as [|x values IH]; intros [|w ws] s; cbn [roulette_with rroulette]; try reflexivity. now rewrite IH. Qed.
Lemma draw_value_rnd g k n st cs f : draw_value_with rnd g k n st cs f = rdraw_value g k n st cs f.
Proof. unfold draw_value_with, rdraw_value, rsample_value. change (fun x => markov_with rnd n x cs (dset (dn_name n) x st) f) with (fun x => rmarkov n x cs (dset (dn_name n) x st) f). destruct (mapM _ (dn_values n)) as [ws|]; cbn [rbind]; [|reflexivity]. unfold draw_with. now rewrite roulette_rnd. Qed.
Lemma add_tree_rnd t l : add_tree_with rnd t l = radd_tree t l.
Proof. induction t as [i|t IHt u IHu]; cbn [add_tree_with radd_tree]; [reflexivity|]. now rewrite IHt, IHu. Qed.
Lemma sum_rnd tag l : sum_with rnd tag l = rsum tag l.
Proof. unfold sum_with, rsum. destruct l; [reflexivity|]. apply add_tree_rnd. Qed.
Lemma sample_rnd g k b order ev : get_sample_with rnd g k b order ev = rget_sample g k b order ev.
Proof.
  apply foldM_ext. intros a v. unfold sample_one_with, rsample_one. destruct (dmem v ev); [reflexivity|]. destruct (get_node b v) as [n|]; cbn [rbind]; [|reflexivity].
  destruct (get_children b v) as [cs|]; cbn [rbind]; [|reflexivity]. now rewrite draw_value_rnd.
Qed.
Lemma one_rnd t g b a v : change_one_with rnd t g b a v = rchange_one t g b a v.
Proof.
  destruct t; [|reflexivity]. cbn [change_one_with rchange_one]. unfold gibbs_one_with, rgibbs_one. destruct (get_node b v) as [n|]; cbn [rbind]; [|reflexivity].
  destruct (get_children b v) as [cs|]; cbn [rbind]; [|reflexivity]. now rewrite draw_value_rnd.
Qed.
Lemma step_rnd t full g b vars a : step_with rnd t full g b vars a = rstep t full g b vars a.
Proof.
  unfold step_with, rstep. destruct full; [apply foldM_ext; intros; apply one_rnd|]. destruct (choice g (snd a) vars) as [[v k]|]; cbn [rbind]; [apply one_rnd|reflexivity].
Qed.
Lemma chain_rnd t burnIn full g b n init ev : chain_with rnd t burnIn full g b n init ev = rgenerate_chain t burnIn full g b n init ev.
Proof.
  unfold chain_with, rgenerate_chain. destruct (vars_to_change b ev) as [vars|]; cbn [rbind]; [|reflexivity].
  rewrite (burn_ext _ (rstep t full g b vars)) by (intros; apply step_rnd). destruct (burn _ burnIn init) as [acc|]; cbn [rbind]; [|reflexivity]. apply yields_ext. intros. apply step_rnd.
Qed.
Lemma marginals_rnd t burnIn full n g b order vs ev : marginals_with rnd t burnIn full n g b order vs ev = rmcmc_marginals t burnIn full n g b order vs ev.
Proof.
  unfold marginals_with, rmcmc_marginals. rewrite sample_rnd. destruct (rget_sample g 0 b order ev) as [i|]; cbn [rbind]; [|reflexivity].
  match goal with |- (let* vv := ?X in _) = _ => destruct X as [vv|] end; cbn [rbind]; [|reflexivity]. rewrite chain_rnd. destruct (rgenerate_chain t burnIn full g b n i (Some ev)) as [l|]; cbn [rbind]; [|reflexivity].
  unfold from_samples_with, rfrom_samples. cbv zeta. match goal with |- (let* c := ?X in _) = _ => destruct X as [c|] end; cbn [rbind]; [|reflexivity]. now rewrite sum_rnd.
Qed.
End Same.

(** ** Magnitudes *)
Section Amid.
Context {RD : Rounding} {LM : Limits}.
Local Open Scope Qc_scope.
Notation one := (1 + ulp).

Lemma grow a c : 1 <= a -> 1 <= c -> a <= a * c.
Proof.
  intros A C. rewrite <- (Qcmult_1_r a) at 1. rewrite !(Qcmult_comm a). apply Qcmult_le_compat_r; [exact C|]. eapply Qcle_trans; [|exact A]. discriminate.
Qed.
Lemma pos_of_amid B x : 1 <= B -> 1 <= x * B -> 0 < x.
Proof.
  intros B1 A. destruct (Qclt_le_dec 0 x) as [L|L]; [exact L|]. exfalso.
  assert (H : x * B <= 0 * B) by (apply Qcmult_le_compat_r; [exact L|]; eapply Qcle_trans; [|exact B1]; discriminate).
  rewrite Qcmult_0_l in H. now destruct (Qcle_trans _ _ _ A H).
Qed.
Lemma amid_nonneg B x : 1 <= B -> amid B x -> 0 <= x.
Proof. intros B1 [->|[A _]]; [apply Qcle_refl|]. apply Qclt_le_weak. now apply (pos_of_amid B). Qed.
Lemma amid_mono A B x : 1 <= A -> A <= B -> amid A x -> amid B x.
Proof.
  intros A1 L M. assert (N := amid_nonneg _ _ A1 M). destruct M as [->|[H K]]; [now left|right]. split.
  - eapply Qcle_trans; [exact H|]. rewrite !(Qcmult_comm x). now apply Qcmult_le_compat_r.
  - now apply Qcle_trans with A.
Qed.
Lemma amid_mul A B x y : 1 <= A -> 1 <= B -> amid A x -> amid B y -> amid (A * B) (x * y).
Proof.
  intros A1 B1 M N. assert (X := amid_nonneg _ _ A1 M). assert (Y := amid_nonneg _ _ B1 N).
  destruct M as [->|[H K]]; [left; apply Qcmult_0_l|]. destruct N as [->|[H' K']]; [left; apply Qcmult_0_r|]. right. split.
  - replace (x * y * (A * B)) with ((x * A) * (y * B)) by ring. now apply le_1_mul.
  - apply le_mul; try assumption. eapply Qcle_trans; [|exact B1]. discriminate.
Qed.
Lemma amid_add B x y : 1 <= B -> amid B x -> amid B y -> amid ((1 + 1) * B) (x + y).
Proof.
  intros B1 M N. assert (X := amid_nonneg _ _ B1 M). assert (Y := amid_nonneg _ _ B1 N). assert (B0 : 0 <= B) by (eapply Qcle_trans; [|exact B1]; discriminate).
  assert (BB : B <= (1 + 1) * B). { replace ((1 + 1) * B) with (B + B) by ring. rewrite <- (Qcplus_0_r B) at 1. apply Qcplus_le_compat; [apply Qcle_refl|exact B0]. }
  destruct M as [->|[H K]]; [rewrite Qcplus_0_l; now apply (amid_mono B)|]. right. split.
  - eapply Qcle_trans; [exact H|]. apply Qcle_trans with (x * ((1 + 1) * B)).
    + rewrite !(Qcmult_comm x). now apply Qcmult_le_compat_r.
    + apply Qcmult_le_compat_r; [|now apply Qcle_trans with B]. rewrite <- (Qcplus_0_r x) at 1. apply Qcplus_le_compat; [apply Qcle_refl|exact Y].
  - replace ((1 + 1) * B) with (B + B) by ring. apply Qcplus_le_compat; [exact K|]. destruct N as [->|[_ K']]; assumption.
Qed.
Lemma amid_inv B x : 1 <= B -> amid B x -> amid B (/ x).
Proof.
  intros B1 [->|[H K]]; [left; reflexivity|]. assert (X := pos_of_amid _ _ B1 H). assert (XZ : x <> 0) by (intros Z; rewrite Z in X; now apply Qc_lt_irrefl in X).
  assert (IP : 0 < / x) by now apply Qcinv_pos. right. split.
  - rewrite <- (Qcmult_inv_l x XZ). rewrite !(Qcmult_comm (/ x)). apply Qcmult_le_compat_r; [exact K|now apply Qclt_le_weak].
  - rewrite <- (Qcmult_1_r (/ x)). replace B with (/ x * (x * B)) by (field; exact XZ). rewrite !(Qcmult_comm (/ x)). apply Qcmult_le_compat_r; [exact H|now apply Qclt_le_weak].
Qed.
Lemma amid_rnd B x : 1 <= B -> amid B x -> amid (B * one) (rnd x).
Proof.
  intros B1 M. assert (X := amid_nonneg _ _ B1 M). assert (B0 : 0 <= B) by (eapply Qcle_trans; [|exact B1]; discriminate).
  destruct M as [->|[H K]]; [left; apply rnd_zero|]. right. split.
  - eapply Qcle_trans; [exact H|]. replace (rnd x * (B * one)) with (one * rnd x * B) by ring. apply Qcmult_le_compat_r; [now apply rnd_above|exact B0].
  - eapply Qcle_trans; [now apply rnd_below|]. rewrite (Qcmult_comm B). rewrite !(Qcmult_comm one). apply Qcmult_le_compat_r; [exact K|]. eapply Qcle_trans; [|apply one_ge]. discriminate.
Qed.
Lemma amid_lim B x : 1 <= B -> amid B x -> B <= top -> lim x = rnd x.
Proof.
  intros B1 M T. assert (X := amid_mono _ _ _ B1 T M). destruct X as [->|[H K]]; [now rewrite lim_zero, rnd_zero|]. now apply lim_inside.
Qed.
End Amid.

(** ** One draw *)
Section Draw.
Context {RD : Rounding} {LM : Limits}.
Local Open Scope Qc_scope.
Notation one := (1 + ulp).
Variable P : Qc.
Hypothesis P1 : 1 <= P.

Definition W (j : nat) : Qc := power P j * power one j.
Lemma W_ge j : 1 <= W j.
Proof. apply le_1_mul; apply pw_ge; [exact P1|apply one_ge]. Qed.
Lemma W_nonneg j : 0 <= W j.
Proof. eapply Qcle_trans; [|apply (W_ge j)]. discriminate. Qed.
Lemma W_le i j : (i <= j)%nat -> W i <= W j.
Proof. intros L. apply le_mul; [apply pw_nonneg, P1|apply pw_nonneg, one_ge|apply pw_le; [exact P1|exact L]|apply pw_le; [apply one_ge|exact L]]. Qed.

Lemma sp_amid n x st p : Forall (amid P) (data (dn_cpd n)) -> sp n x st = Ok p -> amid P p.
Proof.
  intros D. unfold sp. destruct (match dn_values n with [] => Ok [] | _ => _ end) as [i|]; cbn [rbind]; [|discriminate].
  destruct (mapM _ (dn_parents n)) as [s|]; cbn [rbind]; [|discriminate]. unfold aget_err. match goal with |- (if ?c then _ else _) = _ -> _ => destruct c end; [|discriminate]. intros H. inversion H; subst.
  unfold aget. destruct (nth_in_or_default (ravel (shape (dn_cpd n)) (i ++ s)) (data (dn_cpd n)) 0) as [I| ->]; [|now left]. rewrite Forall_forall in D. now apply D.
Qed.

Lemma markov_eq n x cs st F : (S (length cs) <= F)%nat -> W F <= top -> Forall (amid P) (data (dn_cpd n)) ->
  (forall c, In c cs -> Forall (amid P) (data (dn_cpd c))) -> forall f,
  markov_with lim n x cs st f = rmarkov n x cs st f /\ forall p, rmarkov n x cs st f = Ok p -> amid (W F) p.
Proof.
  intros L T D DC f. unfold markov_with, rmarkov. destruct (sp n x st) as [p|] eqn:E; cbn [rbind]; [|split; [reflexivity|discriminate]].
  assert (A : amid (W 1) p). { apply (amid_mono P); [exact P1| |now apply (sp_amid n x st)]. unfold W. cbn [power]. rewrite !Qcmult_1_r. apply grow; [exact P1|apply one_ge]. }
  destruct f; [split; [reflexivity|intros q H; inversion H; subst; apply (amid_mono (W 1)); [apply W_ge|apply W_le; lia|exact A]]|].
  clear E. revert p A. assert (G : (1 + length cs <= F)%nat) by lia. clear L. revert G. generalize 1%nat as j. induction cs as [|c cs IH]; intros j G p A; cbn [foldM length] in *.
  - split; [reflexivity|]. intros q H. inversion H; subst. apply (amid_mono (W j)); [apply W_ge|apply W_le; lia|exact A].
  - destruct (dget_err KeyError (dn_name c) st) as [y|]; cbn [rbind]; [|split; [reflexivity|discriminate]].
    destruct (sp c y st) as [q|] eqn:E; cbn [rbind]; [|split; [reflexivity|discriminate]].
    assert (Q : amid P q) by (apply (sp_amid c y st); [apply DC; now left|exact E]).
    assert (M : amid (W j * P) (p * q)) by (apply amid_mul; [apply W_ge|exact P1|exact A|exact Q]).
    assert (M1 : 1 <= W j * P) by (apply le_1_mul; [apply W_ge|exact P1]).
    assert (EW : W j * P * one = W (S j)) by (unfold W; cbn [power]; ring).
    assert (R := amid_rnd _ _ M1 M). rewrite EW in R.
    assert (LT : W j * P <= top). { apply Qcle_trans with (W (S j)); [|apply Qcle_trans with (W F); [apply W_le; lia|exact T]]. rewrite <- EW. apply grow; [exact M1|apply one_ge]. }
    rewrite (amid_lim _ _ M1 M LT). apply (IH (fun c' I => DC c' (or_intror I)) (S j)); [lia|exact R].
Qed.

(** The wheel. *)
Variable V : Qc.
Hypothesis V1 : 1 <= V.
Definition Z (i : nat) : Qc := V * power (1 + 1) i * power one i.
Lemma Z_ge i : 1 <= Z i.
Proof. apply le_1_mul; [apply le_1_mul; [exact V1|apply pw_ge; discriminate]|apply pw_ge, one_ge]. Qed.
Lemma Z_le i j : (i <= j)%nat -> Z i <= Z j.
Proof.
  intros L. assert (V0 : 0 <= V) by (eapply Qcle_trans; [|exact V1]; discriminate). assert (N := pw_nonneg (1 + 1) i ltac:(discriminate)). assert (N' := pw_nonneg (1 + 1) j ltac:(discriminate)).
  apply le_mul; [now apply Qcmult_nonneg|apply pw_nonneg, one_ge| |apply pw_le; [apply one_ge|exact L]]. apply le_mul; [exact V0|exact N'|apply Qcle_refl|apply pw_le; [discriminate|exact L]].
Qed.
Lemma Z_0 : Z 0 = V. Proof. unfold Z. cbn [power]. ring. Qed.

Lemma add_step i m s w : amid V w -> amid (Z i) s -> (S i <= m)%nat -> Z m <= top -> lim (s + w) = rnd (s + w) /\ amid (Z (S i)) (rnd (s + w)).
Proof.
  intros A B L T. assert (A' : amid (Z i) w) by (apply (amid_mono V); [exact V1|rewrite <- Z_0 at 1; apply Z_le; lia|exact A]).
  assert (H := amid_add _ _ _ (Z_ge i) B A'). assert (H1 : 1 <= (1 + 1) * Z i) by (apply le_1_mul; [discriminate|apply Z_ge]).
  assert (E : (1 + 1) * Z i * one = Z (S i)) by (unfold Z; cbn [power]; ring). assert (R := amid_rnd _ _ H1 H). rewrite E in R. split; [|exact R].
  apply (amid_lim _ _ H1 H). apply Qcle_trans with (Z (S i)); [|apply Qcle_trans with (Z m); [now apply Z_le|exact T]].
  rewrite <- E. apply grow; [exact H1|apply one_ge].
Qed.
Lemma total_from m ws : Forall (amid V) ws -> Z m <= top -> forall i s, amid (Z i) s -> (i + length ws <= m)%nat ->
  fold_left (fun s w => lim (s + w)) ws s = fold_left (fun s w => rnd (s + w)) ws s /\ amid (Z m) (fold_left (fun s w => rnd (s + w)) ws s).
Proof.
  intros D T. induction D as [|w ws A D IH]; intros i s S0 G; cbn [fold_left length] in *.
  - split; [reflexivity|]. apply (amid_mono (Z i)); [apply Z_ge|apply Z_le; lia|exact S0].
  - destruct (add_step i m s w A S0 ltac:(lia) T) as (E & R). rewrite E. apply (IH (S i)); [exact R|lia].
Qed.
Lemma total_eq m ws : Forall (amid V) ws -> (length ws <= m)%nat -> Z m <= top -> total_with lim ws = rtotal ws /\ amid (Z m) (rtotal ws).
Proof. intros D L T. apply (total_from m ws D T 0); [now left|exact L]. Qed.
Lemma roulette_eq m u ws : Forall (amid V) ws -> Z m <= top -> forall values i s, amid (Z i) s -> (i + length ws <= m)%nat ->
  roulette_with lim values ws s u = rroulette values ws s u.
Proof.
  intros D T. induction D as [|w ws A D IH]; intros [|x values] i s S0 G; cbn [roulette_with rroulette length] in *; try reflexivity.
  destruct (add_step i m s w A S0 ltac:(lia) T) as (E & R). rewrite E. rewrite (IH values (S i)); [reflexivity|exact R|lia].
Qed.
Lemma draw_eq U m u values ws : 1 <= U -> amid U u -> Forall (amid V) ws -> (length ws <= m)%nat -> Z m * U <= top ->
  draw_with lim values ws u = rdraw values ws u.
Proof.
  intros U1 UA D L T. assert (Z1 := Z_ge m). assert (T' : Z m <= top). { eapply Qcle_trans; [|exact T]. now apply grow. }
  unfold draw_with, rdraw. destruct (total_eq m ws D L T') as (E & R). rewrite E. assert (M := amid_mul _ _ _ _ U1 Z1 UA R).
  rewrite (amid_lim (U * Z m) _ (le_1_mul _ _ U1 Z1) M) by (rewrite Qcmult_comm; exact T). apply (roulette_eq m _ ws D T' values 0); [now left|exact L].
Qed.
Lemma accept_eq p q : amid V p -> amid V q -> V * V <= top -> accept_with lim p q = raccept p q.
Proof.
  intros A B T. unfold accept_with, raccept. destruct (qeqb q 0); [reflexivity|]. change (p / q) with (p * / q).
  rewrite (amid_lim (V * V) _ (le_1_mul _ _ V1 V1) (amid_mul _ _ _ _ V1 V1 A (amid_inv _ _ V1 B)) T). reflexivity.
Qed.
End Draw.

(** ** Networks *)
Section Net.
Context {RD : Rounding} {LM : Limits}.
Variable b : bn.
Variables P U : Qc.
Hypothesis TM : tame P b [].
Hypothesis U1 : (1 <= U)%Qc.
Variable g : rng.
Hypothesis GR : grainy U g.

Lemma named v n : get_node b v = Ok n -> In n (bnodes b) /\ dn_name n = v.
Proof.
  unfold get_node. destruct (find _ (bnodes b)) eqn:E; [|discriminate]. intros H. inversion H; subst. apply find_some in E. destruct E as (I & E). split; [exact I|].
  apply String.eqb_eq in E. now symmetry.
Qed.
Lemma kids_few v n cs : get_node b v = Ok n -> get_children b v = Ok cs -> length cs <= fanout b.
Proof.
  intros G. apply named in G. destruct G as (I & <-). unfold get_children. destruct (mem (dn_name n) (border b)); [|discriminate]. intros H. apply mapM_ok in H. apply forall2_length in H. rewrite map_length in H. rewrite <- H.
  unfold fanout. clear H. induction (bnodes b) as [|m l IH]; [destruct I|]. cbn [map fold_right]. destruct I as [->|I]; [lia|]. specialize (IH I). lia.
Qed.

Lemma need_W F : (draw_need P U b F = Z (W P F) (widest b) * U)%Qc.
Proof. unfold draw_need, Z, W. rewrite pw_add. ring. Qed.

Lemma draw_value_eq n cs k st (f : bool) F : In n (bnodes b) -> incl cs (bnodes b) -> S (length (if f then @nil dnode else cs)) <= F -> (draw_need P U b F <= top)%Qc ->
  draw_value_with lim g k n st cs f = rdraw_value g k n st cs f.
Proof.
  intros I C L T. destruct TM as (P1 & D & _). rewrite need_W in T. assert (W1 := W_ge P P1 F). assert (Z1 := Z_ge (W P F) W1 (widest b)).
  assert (WT : (W P F <= top)%Qc).
  { apply Qcle_trans with (Z (W P F) (widest b)); [rewrite <- (Z_0 (W P F)) at 1; apply Z_le; [exact W1|lia]|]. eapply Qcle_trans; [|exact T]. now apply grow. }
  assert (M : forall x s, markov_with lim n x cs s f = rmarkov n x cs s f /\ forall p, rmarkov n x cs s f = Ok p -> amid (W P F) p).
  { intros x s. destruct f; [exact (markov_eq P P1 n x [] s F L WT (D n I) (fun c Hc => match Hc with end) true)|].
    apply (markov_eq P P1 n x cs s F L WT (D n I)). intros c Hc. apply D, C, Hc. }
  unfold draw_value_with, rdraw_value, rsample_value. rewrite (mapM_ext _ (fun x => rmarkov n x cs (dset (dn_name n) x st) f)) by (intros x _; apply M).
  destruct (mapM _ (dn_values n)) as [ws|] eqn:E; cbn [rbind]; [|reflexivity]. apply mapM_ok in E. pose proof (forall2_length _ _ _ _ _ E) as EL.
  rewrite (draw_eq (W P F) W1 U (widest b)); [reflexivity|exact U1|apply GR| |rewrite <- EL; now apply widest_node|exact T].
  clear EL. induction E as [|x w l l' H E IH]; constructor; [now apply (proj2 (M _ _)) in H|exact IH].
Qed.

Lemma sample_eq order ev k : (draw_need P U b 1 <= top)%Qc -> get_sample_with lim g k b order ev = rget_sample g k b order ev.
Proof.
  intros T. unfold get_sample_with, rget_sample. apply foldM_ext. intros [s j] v. unfold sample_one_with, rsample_one. destruct (dmem v ev); [reflexivity|].
  destruct (get_node b v) as [n|] eqn:E; cbn [rbind]; [|reflexivity]. destruct (get_children b v) as [cs|] eqn:C; cbn [rbind]; [|reflexivity].
  cbn [fst snd]. rewrite (draw_value_eq n cs j s true 1); [reflexivity|now apply (LawForward.get_node_In b v)|now apply (LawForward.get_children_In b v)|cbn; lia|exact T].
Qed.

Lemma one_eq t acc v : (chain_need t P U b <= top)%Qc -> change_one_with lim t g b acc v = rchange_one t g b acc v.
Proof.
  destruct acc as [s k], t; cbn [chain_need change_one_with rchange_one]; intros T.
  - unfold gibbs_one_with, rgibbs_one. destruct (get_node b v) as [n|] eqn:E; cbn [rbind]; [|reflexivity]. destruct (get_children b v) as [cs|] eqn:C; cbn [rbind]; [|reflexivity].
    cbn [fst snd]. rewrite (draw_value_eq n cs k s false (S (fanout b))); [reflexivity|now apply (LawForward.get_node_In b v)|now apply (LawForward.get_children_In b v)| |exact T].
    apply le_n_S. now apply (kids_few v n).
  - unfold mh_one_with, rmh_one. cbn [fst snd]. destruct (dget_err KeyError v s) as [cur|]; cbn [rbind]; [|reflexivity]. destruct (get_node b v) as [n|] eqn:E; cbn [rbind]; [|reflexivity].
    destruct (choice g k (dn_values n)) as [[y j]|]; cbn [rbind]; [|reflexivity]. destruct (get_children b v) as [cs|] eqn:C; cbn [rbind]; [|reflexivity].
    destruct TM as (P1 & D & _). set (F := S (fanout b)) in *. assert (W1 := W_ge P P1 F).
    assert (WW : (ratio_need P F = W P F * W P F)%Qc). { unfold ratio_need, W. replace (2 * F) with (F + F) by lia. rewrite !pw_add. ring. }
    rewrite WW in T. assert (WT : (W P F <= top)%Qc) by (eapply Qcle_trans; [|exact T]; now apply grow).
    assert (M : forall x u, markov_with lim n x cs u false = rmarkov n x cs u false /\ forall p, rmarkov n x cs u false = Ok p -> amid (W P F) p).
    { intros x u. apply (markov_eq P P1 n x cs u F); [apply le_n_S; now apply (kids_few v n)|exact WT|apply D; now apply (LawForward.get_node_In b v)|].
      intros c Hc. apply D. now apply (LawForward.get_children_In b v cs C). }
    rewrite (proj1 (M y _)), (proj1 (M cur _)). destruct (rmarkov n y cs (dset v y s) false) as [p|] eqn:Ep; cbn [rbind]; [|reflexivity].
    destruct (rmarkov n cur cs s false) as [q|] eqn:Eq; cbn [rbind]; [|reflexivity].
    rewrite (accept_eq (W P F) W1 p q (proj2 (M _ _) _ Ep) (proj2 (M _ _) _ Eq) T). reflexivity.
Qed.

Lemma step_eq t full vars acc : (chain_need t P U b <= top)%Qc -> step_with lim t full g b vars acc = rstep t full g b vars acc.
Proof.
  intros T. unfold step_with, rstep. destruct full.
  - apply foldM_ext. intros a v. now apply one_eq.
  - destruct (choice g (snd acc) vars) as [[v k]|]; cbn [rbind]; [|reflexivity]. now apply one_eq.
Qed.

Lemma chain_eq t burnIn full n init ev : (chain_need t P U b <= top)%Qc ->
  chain_with lim t burnIn full g b n init ev = rgenerate_chain t burnIn full g b n init ev.
Proof.
  intros T. unfold chain_with, rgenerate_chain. destruct (vars_to_change b ev) as [vars|]; cbn [rbind]; [|reflexivity].
  rewrite (burn_ext _ (rstep t full g b vars)) by (intros a; now apply step_eq).
  destruct (burn _ burnIn init) as [acc|]; cbn [rbind]; [|reflexivity]. apply yields_ext. intros a. now apply step_eq.
Qed.
End Net.

(** ** Counting *)
Section Counting.
Context {RD : Rounding} {LM : Limits} {AD : Adding}.

Lemma qnat_amid n k : 0 < n -> k <= n -> amid (qnat n) (qnat k).
Proof.
  intros N L. destruct (Nat.eq_dec k 0) as [->|K]; [now left|right]. assert (N1 : (1 <= qnat n)%Qc) by (apply (qnat_le 1 n); lia). assert (K1 : (1 <= qnat k)%Qc) by (apply (qnat_le 1 k); lia).
  split; [now apply le_1_mul|now apply qnat_le].
Qed.

Lemma limited_counts n vv ss : counts_exactly n -> (qnat n <= top)%Qc -> 0 < n -> forall a ks, data a = map qnat ks -> list_sum ks + length ss <= n ->
  foldM (count_one lim vv) ss a = foldM (count_one rnd vv) ss a.
Proof.
  intros CE T N0. induction ss as [|s ss IH]; intros a ks E L; cbn [foldM length] in *; [reflexivity|].
  unfold count_one at 1 3. destruct (mapM _ vv) as [idx|]; cbn [rbind]; [|reflexivity].
  set (i := ravel (shape a) idx). assert (G : (aget a idx + 1)%Qc = qnat (S (nth i ks 0))).
  { unfold aget. fold i. rewrite E, nth_qnat, qnat_S. ring. }
  assert (NL := nth_le_sum i ks). rewrite G.
  rewrite (amid_lim (qnat n) _ (qnat_le 1 n ltac:(lia)) (qnat_amid n (S (nth i ks 0)) N0 ltac:(lia)) T). rewrite (CE (S (nth i ks 0))) by lia.
  apply (IH _ (list_set i (S (nth i ks 0)) ks)).
  - unfold aset. cbn [data]. fold i. rewrite E. apply set_qnat.
  - pose proof (set_sum i ks). lia.
Qed.

Lemma limited_tree n ks : counts_exactly n -> (qnat n <= top)%Qc -> 0 < n -> forall t, list_sum (map (fun i => nth i ks 0) (leaves t)) <= n ->
  add_tree_with lim t (map qnat ks) = radd_tree t (map qnat ks).
Proof.
  intros CE T N0. induction t as [i|l IHl r IHr]; intros H; cbn [leaves add_tree_with radd_tree map] in *; [reflexivity|].
  rewrite map_app, list_sum_app in H. rewrite IHl, IHr by lia. rewrite !(tree_counts n ks CE) by lia. rewrite <- qnat_add.
  apply (amid_lim (qnat n) _ (qnat_le 1 n ltac:(lia)) (qnat_amid n _ N0 H) T).
Qed.

Lemma from_samples_with_eq ss vv : counts_exactly (length ss) -> (qnat (length ss) <= top)%Qc -> 0 < length ss -> from_samples_with lim ss vv = rfrom_samples ss vv.
Proof.
  intros CE T N0. unfold rfrom_samples, from_samples_with. cbv zeta. set (sh := map (fun p => length (snd p)) vv).
  destruct (zeros_qnat sh) as (ks & ZE & Z0). destruct (same_counts (length ss) vv ss CE (np_zeros sh) ks ZE ltac:(lia)) as [A B].
  change (foldM (fun a s => let* idx := mapM (fun p => let* x := dget_err KeyError (fst p) s in py_index x (snd p)) vv in Ok (aset a idx (rnd (aget a idx + 1))%Qc)) ss (np_zeros sh))
    with (foldM (count_one rnd vv) ss (np_zeros sh)).
  change (foldM (fun a s => let* idx := mapM (fun p => let* x := dget_err KeyError (fst p) s in py_index x (snd p)) vv in Ok (aset a idx (lim (aget a idx + 1))%Qc)) ss (np_zeros sh))
    with (foldM (count_one lim vv) ss (np_zeros sh)).
  rewrite (limited_counts (length ss) vv ss CE T N0 _ ks ZE) by lia.
  destruct (foldM (count_one rnd vv) ss (np_zeros sh)) as [c|]; cbn [rbind]; [|reflexivity]. destruct (B c (eq_sym A)) as (js & J & JL).
  assert (S1 : sum_with lim [] (data c) = rsum [] (data c)).
  { rewrite J. unfold sum_with, rsum. destruct js as [|j js]; [reflexivity|]. cbn [map]. change (qnat j :: map qnat js) with (map qnat (j :: js)). set (l := j :: js) in *.
    apply (limited_tree (length ss) l CE T N0). rewrite map_length.
    assert (PM := plan_ok (length l) [] ltac:(cbn; lia)).
    assert (X : forall a c, Permutation a c -> list_sum a = list_sum c) by (intros a c' H; induction H; cbn [list_sum fold_right] in *; unfold list_sum in *; lia).
    rewrite (X _ _ (Permutation_map (fun i => nth i l 0) PM)). apply Nat.le_trans with (list_sum l); [|exact JL]. apply Nat.eq_le_incl. clear. f_equal. apply (nth_ext _ _ 0 0); [now rewrite map_length, seq_length|]. rewrite map_length, seq_length.
    intros i I. rewrite (nth_indep _ 0 (nth 0 l 0)) by now rewrite map_length, seq_length. rewrite (map_nth (fun i => nth i l 0) (seq 0 (length l)) 0 i), seq_nth by exact I. reflexivity. }
  rewrite S1. assert (S2 : rsum [] (data c) = qnat (list_sum js)).
  { rewrite J, (sum_counts (length ss)) by assumption. clear. induction js as [|k js IH]; [reflexivity|]. cbn [map qsum list_sum fold_right]. rewrite IH. now rewrite <- qnat_add. }
  destruct (qeqb (rsum [] (data c)) 0) eqn:Q; [reflexivity|]. f_equal. f_equal. unfold amap. f_equal. apply map_ext_in. intros x Hx. rewrite J in Hx. apply in_map_iff in Hx. destruct Hx as (k & <- & K).
  assert (KL : k <= list_sum js). { clear - K. induction js as [|j js IH]; [destruct K|]. cbn [list_sum fold_right]. destruct K as [->|K]; [lia|]. specialize (IH K). unfold list_sum in IH. lia. }
  assert (SP : 0 < list_sum js). { destruct (list_sum js) eqn:SJ; [|lia]. rewrite S2 in Q. cbn in Q. discriminate Q. }
  rewrite S2. assert (S3 : (qnat (list_sum js) <= top)%Qc) by (eapply Qcle_trans; [apply qnat_le; exact JL|exact T]).
  destruct (Nat.eq_dec k 0) as [->|KN].
  { change (qnat 0) with 0%Qc. unfold Qcdiv. rewrite Qcmult_0_l, lim_zero, rnd_zero. reflexivity. }
  assert (SQ : (0 < qnat (list_sum js))%Qc) by (eapply Qclt_le_trans; [|apply (qnat_le 1); exact SP]; reflexivity). assert (SN : (qnat (list_sum js) <> 0)%Qc) by (intros E; rewrite E in SQ; now apply Qc_lt_irrefl in SQ).
  apply (amid_lim (qnat (list_sum js))); [apply (qnat_le 1); exact SP| |exact S3]. right. split.
  - replace (qnat k / qnat (list_sum js) * qnat (list_sum js))%Qc with (qnat k) by (field; exact SN). apply (qnat_le 1). lia.
  - apply Qcle_trans with 1%Qc; [|apply (qnat_le 1); exact SP]. replace 1%Qc with (qnat (list_sum js) / qnat (list_sum js))%Qc by (field; exact SN).
    apply Qcmult_le_compat_r; [now apply qnat_le|]. now apply Qclt_le_weak, Qcinv_pos.
Qed.
End Counting.
