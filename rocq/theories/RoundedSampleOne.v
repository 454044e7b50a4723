(** Updates in rounded arithmetic take the same turn as in exact arithmetic for almost all
    random numbers. *)
From Coq Require Import Field.
From Verif Require Import Base NDArray Factor Exact Spec BaseFacts FactorProofs SpecFacts Sampling MCSpec MCFacts MCProof MCTop MCChain
  LawSpec LawCount LawKernel LawOne LawChain LawErgodic LawForward LawMCMC
  Rounded RoundedSpec RoundedProof RoundedTables RoundedTop RoundedSample RoundedSampleSpec RoundedSampleDraw.

Lemma get_children_few b v cs : get_children b v = Ok cs -> length cs <= length (bedges b).
Proof.
  unfold get_children. destruct (mem v (border b)); [|discriminate]. intros H. apply mapM_ok in H. apply forall2_length in H. rewrite map_length in H. rewrite <- H. clear.
  induction (bedges b) as [|e l IH]; [apply Nat.le_refl|]. cbn [filter]. destruct (String.eqb v (fst e)); cbn [length]; lia.
Qed.

Lemma widest_node b n : In n (bnodes b) -> length (dn_values n) <= widest b.
Proof.
  unfold widest. induction (bnodes b) as [|m l IH]; intros H; [destruct H|]. cbn [map fold_right]. destruct H as [->|H]; [lia|]. specialize (IH H). lia.
Qed.
Lemma widest_pos b : 1 <= widest b.
Proof. unfold widest. induction (bnodes b) as [|m l IH]; cbn [map fold_right]; lia. Qed.

Section Net.
Context {RD : Rounding}.
Variable b : bn.
Hypothesis NNb : nonneg_bn b.
Notation M := (draw_errors b).
Notation P m := (RoundedSpec.power (1 + ulp)%Qc m).

Lemma sp_bad_same n x st e : sp n x st = Err e -> forall cs f, rmarkov n x cs st f = Err e.
Proof. intros E cs f. unfold rmarkov. now rewrite E. Qed.

Lemma rmarkov_err n x cs st f e : get_markov_prob n x cs st f = Err e -> rmarkov n x cs st f = Err e.
Proof.
  unfold get_markov_prob, rmarkov. destruct (sp n x st) as [p|]; cbn [rbind]; [|congruence]. destruct f; [discriminate|].
  generalize p at 2. revert p. induction cs as [|c cs IH]; intros p p'; cbn [foldM]; [discriminate|].
  destruct (dget_err KeyError (dn_name c) st) as [y|]; cbn [rbind]; [|congruence]. destruct (sp c y st); cbn [rbind]; [|congruence]. apply IH.
Qed.

Lemma nodes_nonneg n cs : In n (bnodes b) -> incl cs (bnodes b) -> forall m, m = n \/ In m cs -> Forall (fun q => (0 <= q)%Qc) (data (dn_cpd m)).
Proof. intros Hn I m [->|H]; apply NNb; auto. Qed.

Definition weights (n : dnode) (cs : list dnode) (f : bool) (x : dict string) : res (list Qc) :=
  mapM (fun y => get_markov_prob n y cs (dset (dn_name n) y x) f) (dn_values n).
Definition rweights (n : dnode) (cs : list dnode) (f : bool) (x : dict string) : res (list Qc) :=
  mapM (fun y => rmarkov n y cs (dset (dn_name n) y x) f) (dn_values n).

Lemma weights_both n cs f x : In n (bnodes b) -> incl cs (bnodes b) ->
  (exists ws ws', weights n cs f x = Ok ws /\ rweights n cs f x = Ok ws' /\ Forall2 (close (length cs)) ws ws' /\ length ws = length (dn_values n)) \/
  (exists e, weights n cs f x = Err e /\ rweights n cs f x = Err e).
Proof.
  intros Hn I. unfold weights, rweights. induction (dn_values n) as [|y l IH]; cbn [mapM].
  - left. exists [], []. repeat split; auto.
  - destruct (get_markov_prob n y cs (dset (dn_name n) y x) f) as [p|e] eqn:E; cbn [rbind].
    + destruct (rmarkov_close n y cs _ f p (nodes_nonneg n cs Hn I) E) as (p' & E' & C). rewrite E'. cbn [rbind].
      destruct IH as [(ws & ws' & E1 & E2 & F & L)|(e & E1 & E2)]; rewrite E1, E2; cbn [rbind]; [left|right; eauto].
      exists (p :: ws), (p' :: ws'). repeat split; auto. cbn [length]. now rewrite L.
    + right. exists e. rewrite (rmarkov_err _ _ _ _ _ _ E). auto.
Qed.

Definition bad_draw (n : dnode) (cs : list dnode) (f : bool) (x : dict string) (u : Qc) : bool :=
  match weights n cs f x with Ok ws => bad_wheel M ws u | Err _ => false end.

Lemma draw_same g k n x cs f : In n (bnodes b) -> incl cs (bnodes b) -> length cs <= length (bedges b) -> (0 <= unif g k)%Qc ->
  bad_draw n cs f x (unif g k) = false -> rdraw_value g k n x cs f = sample_value g k n x cs f.
Proof.
  intros Hn I L U B. unfold rdraw_value, rsample_value, sample_value. unfold bad_draw in B.
  change (mapM (fun x0 => rmarkov n x0 cs (dset (dn_name n) x0 x) f) (dn_values n)) with (rweights n cs f x).
  change (mapM (fun x0 => get_markov_prob n x0 cs (dset (dn_name n) x0 x) f) (dn_values n)) with (weights n cs f x).
  destruct (weights_both n cs f x Hn I) as [(ws & ws' & E1 & E2 & F & LW)|(e & E1 & E2)]; rewrite E1, E2; cbn [rbind]; [|reflexivity].
  rewrite E1 in B. rewrite (wheel_same M (length cs) (dn_values n) ws ws' (unif g k) F (eq_sym LW) U); [reflexivity| |exact B].
  pose proof (widest_node b n Hn). unfold draw_errors. rewrite LW. lia.
Qed.

Lemma weights_nonneg n cs f x ws : In n (bnodes b) -> incl cs (bnodes b) -> weights n cs f x = Ok ws -> Forall (fun w => (0 <= w)%Qc) ws.
Proof.
  intros Hn I E. destruct (weights_both n cs f x Hn I) as [(ws1 & ws' & E1 & _ & F & _)|(e & E1 & _)]; [|congruence].
  rewrite E1 in E. inversion E; subst. clear - F. induction F as [|w w' l l' C F IH]; constructor; [apply C|exact IH].
Qed.

Variable N : nat.
Hypothesis N0 : 0 < N.
Notation NN := (qnat N * qnat N)%Qc.
Notation one1 := (qnat N * (P (2 * M) - 1) + 1)%Qc.

Lemma one1_nonneg : (0 <= one1)%Qc.
Proof. apply Qcplus_nonneg; [|discriminate]. apply Qcmult_nonneg; [apply qnat_nonneg|]. apply -> Qcle_minus_iff. apply power_ge. Qed.

Lemma slip_eq : (qnat N * slip b N = qnat (widest b) * one1)%Qc.
Proof. unfold slip. field. now apply qnat_neq0. Qed.

Lemma slip_nonneg : (0 <= slip b N)%Qc.
Proof.
  apply (cancel_le (qnat N)); [now apply qnat_pos|]. rewrite slip_eq, Qcmult_0_r. apply Qcmult_nonneg; [apply qnat_nonneg|apply one1_nonneg].
Qed.

Lemma draw_count n cs f x : In n (bnodes b) -> incl cs (bnodes b) -> (qsum (map (fun u => ind (bad_draw n cs f x u)) (grid N)) <= qnat N * slip b N)%Qc.
Proof.
  intros Hn I. rewrite slip_eq. unfold bad_draw. destruct (weights_both n cs f x Hn I) as [(ws & ws' & E1 & _ & F & LW)|(e & E1 & _)]; rewrite E1.
  - eapply Qcle_trans; [apply wheel_count; [exact N0|]|].
    + now apply (weights_nonneg n cs f x).
    + apply Qcmult_le_compat_r; [|apply one1_nonneg]. apply qnat_le. rewrite LW. now apply widest_node.
  - rewrite qsum_zero; [|reflexivity]. apply Qcmult_nonneg; [apply qnat_nonneg|apply one1_nonneg].
Qed.

Definition bad_trial (n : dnode) (cs : list dnode) (x : dict string) (c : nat) (u : Qc) : bool :=
  match dn_values n with
  | [] => false
  | y0 :: _ =>
    let y := nth (Nat.modulo c (length (dn_values n))) (dn_values n) y0 in
    match dget (dn_name n) x with
    | Some cur => match get_markov_prob n y cs (dset (dn_name n) y x) false, get_markov_prob n cur cs x false with
                  | Ok p, Ok q => nearby M u (accept_prob p q)
                  | _, _ => false
                  end
    | None => false
    end
  end.

Lemma accept_01 p c : (0 <= p)%Qc -> (0 <= c)%Qc -> (0 <= accept_prob p c)%Qc /\ (accept_prob p c <= 1)%Qc.
Proof. intros A B. now apply accept_range. Qed.

Lemma trial_count n cs x c : In n (bnodes b) -> incl cs (bnodes b) -> (qsum (map (fun u => ind (bad_trial n cs x c u)) (grid N)) <= qnat N * slip b N)%Qc.
Proof.
  intros Hn I.
  assert (Z : (qsum (map (fun _ : Qc => ind false) (grid N)) <= qnat N * slip b N)%Qc).
  { rewrite qsum_zero; [|reflexivity]. apply Qcmult_nonneg; [apply qnat_nonneg|apply slip_nonneg]. }
  unfold bad_trial. destruct (dn_values n) as [|y0 ys]; [exact Z|]. cbv zeta. set (y := nth _ _ y0). destruct (dget (dn_name n) x) as [cur|]; [|exact Z].
  destruct (get_markov_prob n y cs (dset (dn_name n) y x) false) as [p|] eqn:E1; [|exact Z]. destruct (get_markov_prob n cur cs x false) as [q|] eqn:E2; [|exact Z].
  destruct (rmarkov_close _ _ _ _ _ _ (nodes_nonneg n cs Hn I) E1) as (p' & _ & C1). destruct (rmarkov_close _ _ _ _ _ _ (nodes_nonneg n cs Hn I) E2) as (q' & _ & C2).
  destruct (accept_01 p q (proj1 C1) (proj1 C2)) as [A0 A1].
  rewrite slip_eq. eapply Qcle_trans.
  - eapply Qcle_trans; [|exact (nearby_count N M 1%Qc (accept_prob p q) N0 A0 A1)]. apply sum_le. intros u _. rewrite Qcmult_1_r. apply Qcle_refl.
  - rewrite <- (Qcmult_1_l one1) at 1. apply Qcmult_le_compat_r; [|apply one1_nonneg]. change 1%Qc with (qnat 1). apply qnat_le, widest_pos.
Qed.

(** ** Programs and the draws for which they may differ *)
Definition fails := dict string -> list (Qc * nat) -> bool.
Definition coupled (B : fails) (F F' : prog) (c : nat) (d : Qc) : Prop := forall x,
  (forall l, In l (streams N c) -> B x l = false -> F' x l = F x l) /\
  (qsum (map (fun l => ind (B x l)) (streams N c)) <= powc NN c * d)%Qc.

Definition rone (t : transition) (v : string) : prog := fun x l =>
  match rchange_one t (gen l) b (x, 0) v with Ok (s, _) => Ok s | Err e => Err e end.

Lemma rone_computes t v : computes (fun g a => rchange_one t g b a v) (rone t v) (per_variable t).
Proof.
  intros g st k. unfold rone. destruct t; cbn [rchange_one per_variable].
  - unfold rgibbs_one. cbn [fst snd]. destruct (get_node b v); cbn [rbind]; [|reflexivity]. destruct (get_children b v); cbn [rbind]; [|reflexivity].
    unfold rdraw_value, rsample_value. destruct (mapM _ _) as [ws|]; cbn [rbind]; [|reflexivity]. change (unif (gen (dl g k 1)) 0) with (unif g k).
    destruct (rdraw _ _ _); cbn [rbind]; [|reflexivity]. now rewrite Nat.add_1_r.
  - unfold rmh_one. cbn [fst snd]. destruct (dget_err KeyError v st); cbn [rbind]; [|reflexivity].
    destruct (get_node b v) as [n|]; cbn [rbind]; [|reflexivity]. unfold choice. destruct (dn_values n) as [|y0 ys] eqn:V; cbn [rbind]; [reflexivity|].
    change (choose (gen (dl g k 2)) 0) with (choose g k). set (y := nth (Nat.modulo (choose g k) (length (y0 :: ys))) (y0 :: ys) y0).
    destruct (get_children b v); cbn [rbind]; [|reflexivity].
    destruct (rmarkov n y _ _ _); cbn [rbind]; [|reflexivity]. destruct (rmarkov n _ _ st _); cbn [rbind]; [|reflexivity].
    change (unif (gen (dl g k 2)) 1) with (unif g (S k)). now rewrite Nat.add_comm.
Qed.

Definition bad_one (t : transition) (v : string) : fails := fun x l =>
  match get_node b v, get_children b v with
  | Ok n, Ok cs =>
    match t with
    | Gibbs => bad_draw n cs false x (fst (nth 0 l (half, 0)))
    | MetropolisHastings => bad_trial n cs x (snd (nth 0 l (half, 0))) (fst (nth 1 l (half, 0)))
    end
  | _, _ => false
  end.

Lemma node_name v n : get_node b v = Ok n -> dn_name n = v.
Proof. unfold get_node. destruct (find _ (bnodes b)) eqn:E; [|discriminate]. intros H. inversion H; subst. apply find_some in E as [_ E]. now apply String.eqb_eq in E. Qed.

Lemma one_coupled t v : coupled (bad_one t v) (one b t v) (rone t v) (per_variable t) (slip b N).
Proof.
  intros x. assert (Z : forall c, (qsum (map (fun l : list (Qc * nat) => ind false) (streams N c)) <= powc NN c * slip b N)%Qc).
  { intros c. rewrite qsum_zero; [|reflexivity]. rewrite <- streams_count. apply Qcmult_nonneg; [apply qnat_nonneg|apply slip_nonneg]. }
  unfold bad_one, one, rone. destruct t; cbn [per_variable change_one rchange_one].
  - unfold gibbs_one, rgibbs_one. cbn [fst snd]. destruct (get_node b v) as [n|] eqn:GN; cbn [rbind]; [|split; [auto|apply Z]].
    destruct (get_children b v) as [cs|] eqn:GC; cbn [rbind]; [|split; [auto|apply Z]].
    pose proof (LawForward.get_node_In b v n GN) as Hn. pose proof (get_children_In b v cs GC) as I. pose proof (get_children_few b v cs GC) as L. split.
    + intros l Hl B. rewrite draw_same; auto. apply (gen_ok N 1 l Hl).
    + rewrite (streams_1 N (fun l => ind (bad_draw n cs false x (fst (nth 0 l (half, 0)))))). cbn [nth fst powc].
      eapply Qcle_trans; [apply sum_le; intros u _; rewrite qsum_const, seq_length; apply Qcle_refl|]. rewrite qsum_mult_l.
      replace (NN * 1 * slip b N)%Qc with (qnat N * (qnat N * slip b N))%Qc by ring. apply Qcmult_le_l; [apply qnat_nonneg|]. now apply draw_count.
  - unfold mh_one, rmh_one. cbn [fst snd]. destruct (get_node b v) as [n|] eqn:GN; cbn [rbind].
    2: { split; [|apply Z]. intros. destruct (dget_err KeyError v x); reflexivity. }
    destruct (get_children b v) as [cs|] eqn:GC; cbn [rbind].
    2: { split; [|apply Z]. intros. destruct (dget_err KeyError v x); cbn [rbind]; [|reflexivity]. destruct (choice _ _ _) as [[? ?]|]; reflexivity. }
    pose proof (LawForward.get_node_In b v n GN) as Hn. pose proof (get_children_In b v cs GC) as I. pose proof (get_children_few b v cs GC) as L. split.
    + intros l Hl B. unfold dget_err. pose proof (node_name v n GN) as E. subst v. unfold bad_trial in B.
      destruct (dget (dn_name n) x) as [cur|] eqn:D; cbn [rbind]; [|reflexivity]. unfold choice. cbn [gen choose].
      destruct (dn_values n) as [|y0 ys] eqn:V; cbn [rbind]; [reflexivity|]. rewrite <- V in *. cbv zeta in B. set (y := nth _ (dn_values n) y0) in *.
      destruct (get_markov_prob n y cs (dset (dn_name n) y x) false) as [p|e] eqn:E1; cbn [rbind].
      2: { now rewrite (rmarkov_err _ _ _ _ _ _ E1). }
      destruct (rmarkov_close _ _ _ _ _ _ (nodes_nonneg n cs Hn I) E1) as (p' & E1' & C1). rewrite E1'. cbn [rbind].
      destruct (get_markov_prob n cur cs x false) as [q|e] eqn:E2; cbn [rbind].
      2: { now rewrite (rmarkov_err _ _ _ _ _ _ E2). }
      destruct (rmarkov_close _ _ _ _ _ _ (nodes_nonneg n cs Hn I) E2) as (q' & E2' & C2). rewrite E2'. cbn [rbind].
      pose proof (accept_close _ _ _ _ _ C1 C2) as CA. cbn [gen unif].
      assert (EQ : qleb (fst (nth 1 l (half, 0))) (raccept p' q') = qleb (fst (nth 1 l (half, 0))) (accept_prob p q)).
      { apply (safe M 0 (2 * length cs + 1)); [|exact CA| |exact B].
        - apply close_refl. exact (proj1 (gen_ok N 2 l Hl 1)).
        - unfold draw_errors. lia. }
      rewrite EQ. reflexivity.
    + rewrite (streams_2 N (fun l => ind (bad_trial n cs x (snd (nth 0 l (half, 0))) (fst (nth 1 l (half, 0)))))). cbn [nth fst snd powc].
      apply Qcle_trans with (qsum (map (fun _ : Qc => qsum (map (fun _ : nat => qnat N * (qnat N * slip b N)) (seq 0 N))) (grid N)))%Qc.
      * apply sum_le. intros u _. apply sum_le. intros c _. eapply Qcle_trans; [apply sum_le; intros u' _; rewrite qsum_const, seq_length; apply Qcle_refl|].
        rewrite qsum_mult_l. apply Qcmult_le_l; [apply qnat_nonneg|]. now apply trial_count.
      * rewrite !qsum_const, grid_length, seq_length. match goal with |- (?a <= ?c)%Qc => replace c with a by ring end. apply Qcle_refl.
Qed.

(** ** Programs one after the other *)
Definition bad_follow (c : nat) (B B' : fails) (F : prog) : fails := fun x l =>
  B x (firstn c l) || match F x (firstn c l) with Ok s => B' s (skipn c l) | Err _ => false end.

Lemma coupled_follow B F F' c d B' G G' c' d' : coupled B F F' c d -> coupled B' G G' c' d' -> (0 <= d')%Qc ->
  coupled (bad_follow c B B' F) (follow c F G) (follow c F' G') (c + c') (d + d')%Qc.
Proof.
  intros H H' D' x. destruct (H x) as [S1 S2].
  assert (SPLIT : forall l1 (l2 : list (Qc * nat)), length l1 = c -> firstn c (l1 ++ l2) = l1 /\ skipn c (l1 ++ l2) = l2).
  { intros l1 l2 <-. now rewrite firstn_app, Nat.sub_diag, firstn_all, skipn_app, skipn_all, Nat.sub_diag, app_nil_r. }
  assert (MEM : forall l, In l (streams N (c + c')) -> In (firstn c l) (streams N c) /\ In (skipn c l) (streams N c')).
  { clear. induction c as [|c IH]; intros l Hl; [split; [now left|exact Hl]|]. cbn [Nat.add streams] in Hl. apply in_flat_map in Hl as (d & D & Hl).
    apply in_map_iff in Hl as (l' & <- & Hl). cbn [firstn skipn]. destruct (IH l' Hl) as [A1 A2]. split; [|exact A2]. cbn [streams]. apply in_flat_map. exists d. split; [exact D|now apply in_map]. }
  split.
  - intros l Hl Z. unfold bad_follow in Z. apply orb_false_iff in Z as [Z1 Z2]. destruct (MEM l Hl) as [M1 M2]. unfold follow. rewrite (S1 _ M1 Z1).
    destruct (F x (firstn c l)) as [s|e] eqn:E; cbn [rbind]; [|reflexivity]. now apply (proj1 (H' s)).
  - rewrite streams_split.
    apply Qcle_trans with (qsum (map (fun l1 => powc NN c' * ind (B x l1) + powc NN c' * d') (streams N c)))%Qc.
    + apply sum_le. intros l1 L1. pose proof (proj1 (Forall_forall _ _) (streams_length N c) l1 L1) as LE.
      apply Qcle_trans with (qsum (map (fun l2 => ind (B x l1) + match F x l1 with Ok s => ind (B' s l2) | Err _ => 0 end) (streams N c')))%Qc.
      * apply sum_le. intros l2 _. unfold bad_follow. destruct (SPLIT l1 l2 LE) as [-> ->]. destruct (B x l1); cbn [orb ind].
        -- rewrite <- (Qcplus_0_r 1) at 1. apply Qcplus_le_compat; [apply Qcle_refl|]. destruct (F x l1) as [s|]; [|apply Qcle_refl]. destruct (B' s l2); [discriminate|apply Qcle_refl].
        -- rewrite Qcplus_0_l. destruct (F x l1); apply Qcle_refl.
      * rewrite qsum_plus, qsum_const, streams_count. apply Qcplus_le_compat; [apply Qcle_refl|]. destruct (F x l1) as [s|].
        -- apply (H' s).
        -- rewrite qsum_zero by reflexivity. rewrite <- streams_count. apply Qcmult_nonneg; [apply qnat_nonneg|exact D'].
    + rewrite qsum_plus, qsum_mult_l, qsum_const, streams_count, powc_add.
      replace (powc NN c * powc NN c' * (d + d'))%Qc with (powc NN c' * (powc NN c * d) + powc NN c * (powc NN c' * d'))%Qc by ring.
      apply Qcplus_le_compat; [|apply Qcle_refl]. apply Qcmult_le_l; [|exact S2]. rewrite <- streams_count. apply qnat_nonneg.
Qed.

Lemma coupled_pause : coupled (fun _ _ => false) pause pause 0 0%Qc.
Proof. intros x. split; [auto|]. cbn. discriminate. Qed.

Definition bad_pick (vars : list string) (B : string -> fails) : fails := fun x l =>
  match l with [] => false | d :: l' => B (nth (Nat.modulo (snd d) (length vars)) vars "") x l' end.

Lemma coupled_pick vars B F F' c d : (forall v, coupled (B v) (F v) (F' v) c d) ->
  coupled (bad_pick vars B) (pickp vars F) (pickp vars F') (S c) d.
Proof.
  intros H x. split.
  - intros l Hl Z. cbn [streams] in Hl. apply in_flat_map in Hl as (e & E & Hl). apply in_map_iff in Hl as (l' & <- & Hl). cbn [bad_pick pickp] in *. now apply (proj1 (H _ x)).
  - rewrite streams_S. cbn [bad_pick powc]. eapply Qcle_trans; [apply sum_le; intros e _; exact (proj2 (H _ x))|].
    rewrite qsum_const, draws_length, qnat_mul, Qcmult_assoc. apply Qcle_refl.
Qed.

Fixpoint rsweep (t : transition) (vs : list string) : prog :=
  match vs with [] => pause | v :: vs' => follow (per_variable t) (rone t v) (rsweep t vs') end.
Definition rstepp (t : transition) (full : bool) (vs : list string) : prog :=
  if full then rsweep t vs else pickp vs (rone t).

Lemma rsweep_computes t vs : computes (fun g a => foldM (rchange_one t g b) vs a) (rsweep t vs) (per_variable t * length vs).
Proof.
  induction vs as [|v vs IH].
  - intros g st k. cbn [foldM rsweep length]. unfold pause. cbn [rbind]. now rewrite Nat.mul_0_r, Nat.add_0_r.
  - cbn [length rsweep]. rewrite Nat.mul_succ_r, Nat.add_comm. intros g st k.
    etransitivity; [|exact (computes_seq _ _ _ _ _ _ (rone_computes t v) IH g st k)]. reflexivity.
Qed.

Lemma rstep_computes t full vs : full = true \/ vs <> [] ->
  computes (fun g a => rstep t full g b vs a) (rstepp t full vs) (per_step t full vs).
Proof.
  intros F. destruct full; [exact (rsweep_computes t vs)|]. destruct F as [F|F]; [discriminate|]. intros g st k. unfold rstep, rstepp, per_step, choice, pickp.
  cbn [fst snd]. destruct vs as [|v vs]; [contradiction|]. cbn [rbind]. change (dl g k (S (per_variable t))) with ((unif g k, choose g k) :: dl g (S k) (per_variable t)).
  cbn [snd]. rewrite (nth_indep (v :: vs) "" v) by (apply Nat.mod_upper_bound; discriminate). rewrite (rone_computes t _ g st (S k)).
  destruct (rone t _ st _); cbn [rbind]; [|reflexivity]. now rewrite Nat.add_succ_r.
Qed.

Fixpoint bad_sweep (t : transition) (vs : list string) : fails :=
  match vs with [] => fun _ _ => false | v :: vs' => bad_follow (per_variable t) (bad_one t v) (bad_sweep t vs') (one b t v) end.
Definition bad_step (t : transition) (full : bool) (vs : list string) : fails :=
  if full then bad_sweep t vs else bad_pick vs (bad_one t).

Lemma mult_nonneg n d : (0 <= d)%Qc -> (0 <= qnat n * d)%Qc.
Proof. intros H. apply Qcmult_nonneg; [apply qnat_nonneg|exact H]. Qed.

Lemma step_coupled t full vs :
  coupled (bad_step t full vs) (stepp b t full vs) (rstepp t full vs) (per_step t full vs) (qnat (updates full vs) * slip b N)%Qc.
Proof.
  destruct full; unfold bad_step, stepp, rstepp, per_step, updates.
  - induction vs as [|v vs IH]; cbn [bad_sweep sweep rsweep length].
    + rewrite Nat.mul_0_r, qnat_0, Qcmult_0_l. apply coupled_pause.
    + rewrite Nat.mul_succ_r, Nat.add_comm, qnat_S. replace ((1 + qnat (length vs)) * slip b N)%Qc with (slip b N + qnat (length vs) * slip b N)%Qc by ring.
      apply coupled_follow; [apply one_coupled|exact IH|apply mult_nonneg, slip_nonneg].
  - change (qnat 1) with 1%Qc. rewrite Qcmult_1_l. apply coupled_pick. intros v. apply one_coupled.
Qed.

Fixpoint bad_run (c : nat) (B : fails) (F : prog) (n : nat) : fails :=
  match n with O => fun _ _ => false | S n' => bad_follow c B (bad_run c B F n') F end.

Lemma run_coupled c B F F' d n : (0 <= d)%Qc -> coupled B F F' c d -> coupled (bad_run c B F n) (burnp c F n) (burnp c F' n) (n * c) (qnat n * d)%Qc.
Proof.
  intros D H. induction n as [|n IH]; cbn [bad_run burnp Nat.mul].
  - rewrite qnat_0, Qcmult_0_l. apply coupled_pause.
  - rewrite qnat_S. replace ((1 + qnat n) * d)%Qc with (d + qnat n * d)%Qc by ring. apply coupled_follow; auto. now apply mult_nonneg.
Qed.

(** The states along the way. *)
Lemma run_yields c B F F' d f f' : coupled B F F' c d -> computes f F c -> computes f' F' c -> forall n x g k,
  (forall i, i < n * c -> In (unif g (k + i), choose g (k + i)) (draws N)) -> bad_run c B F n x (dl g k (n * c)) = false ->
  burn (f' g) n (x, k) = burn (f g) n (x, k) /\ yields (f' g) n (x, k) = yields (f g) n (x, k).
Proof.
  intros H C C'. induction n as [|n IH]; intros x g k D Z; [split; reflexivity|].
  cbn [bad_run Nat.mul] in Z. unfold bad_follow in Z. rewrite dl_firstn, dl_skipn in Z. apply orb_false_iff in Z as [Z1 Z2].
  cbn [burn yields]. rewrite (C g x k), (C' g x k).
  assert (ST : In (dl g k c) (streams N c)).
  { assert (D1 : forall i, i < c -> In (unif g (k + i), choose g (k + i)) (draws N)) by (intros i I; apply D; cbn [Nat.mul]; lia).
    clear - D1. revert k D1. induction c as [|c IH]; intros k D1; [now left|]. unfold dl. cbn [seq map]. cbn [streams]. apply in_flat_map.
    exists (unif g k, choose g k). split; [specialize (D1 0 ltac:(lia)); now rewrite Nat.add_0_r in D1|]. apply in_map. apply (IH (S k)). intros i I. replace (S k + i) with (k + S i) by lia. apply D1. lia. }
  rewrite (proj1 (H x) _ ST Z1). destruct (F x (dl g k c)) as [s|e]; cbn [rbind]; [|split; reflexivity].
  destruct (IH s g (k + c)) as [E1 E2].
  - intros i I. rewrite <- Nat.add_assoc. apply D. cbn [Nat.mul]. lia.
  - exact Z2.
  - rewrite E1, E2. split; reflexivity.
Qed.
End Net.
