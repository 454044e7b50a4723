(** The exceptions of networks and nodes. *)
From Verif Require Import Base BaseFacts NDArray NDArrayFacts Factor Exact Spec Node Network NetSpec NetFacts NetInv NetOps NetOps2 NetRename NetTop NetView NetTable ErrSpec.

Lemma in_names w v : consistent w -> In v (names w) <-> exists i n, holds w v i n.
Proof. intros C. split; [apply in_lookup, C|]. intros (i & n & H). exact (holds_in w v i n H). Qed.

Lemma names_dec w v : {In v (names w)} + {~ In v (names w)}.
Proof. apply in_dec, string_dec. Qed.

Lemma own_shape' w v i n : inv w -> holds w v i n ->
  shape (tarr (ncpd n)) = (if nvalues n then [] else [length (nvalues n)]) ++ map (fun q => length (vals_of w q)) (nporder n).
Proof.
  intros I H. destruct (iv_f w I v i n H) as [K S]. destruct (table_array w i n I (proj2 H) K) as [-> _].
  rewrite S. unfold right_shape. f_equal. apply map_ext, size_vals.
Qed.

Lemma own_index_cases n x : unknown_value n x /\ own_index n x = Err ValueError \/
  ~ unknown_value n x /\ exists l, own_index n x = Ok l /\ Forall2 sel_in (map Fix l) (if nvalues n then [] else [length (nvalues n)]).
Proof.
  unfold own_index, unknown_value. destruct (nvalues n) as [|y l] eqn:E.
  - right. split; [intros [X _]; congruence|]. exists []. split; [reflexivity|constructor].
  - destruct (In_dec_s x (y :: l)) as [Ix|NI].
    + right. split; [tauto|]. exists [idx x (y :: l)]. rewrite (py_index_ok x _ Ix). split; [reflexivity|]. constructor; [apply idx_lt, Ix|constructor].
    + left. split; [split; [discriminate|exact NI]|]. rewrite (py_index_err x _ NI). reflexivity.
Qed.

Lemma known_dec w n pv : known w n pv \/ unknown_parent_value w n pv.
Proof.
  unfold known, unknown_parent_value. induction (nporder n) as [|q l IH]; [left; intros q y []|].
  destruct IH as [G|(q' & y & Iq & D & N)]; [|right; exists q', y; split; [now right|auto]].
  destruct (dget q pv) as [y|] eqn:D.
  - destruct (In_dec_s y (vals_of w q)) as [Iy|NI]; [left|right; exists q, y; split; [now left|auto]].
    intros q' y' [<-|Iq] D'; [congruence|exact (G q' y' Iq D')].
  - left. intros q' y' [<-|Iq] D'; [congruence|exact (G q' y' Iq D')].
Qed.

Lemma set_prob_cases w v i n x p pv : inv w -> holds w v i n ->
  (unknown_value n x \/ unknown_parent_value w n pv) /\ set_probability (whp w) n x p pv = Err ValueError \/
  ~ (unknown_value n x \/ unknown_parent_value w n pv) /\ exists n', set_probability (whp w) n x p pv = Ok n'.
Proof.
  intros I H. assert (K := inv_discrete w I v i n H). assert (PV := fun q Iq => parent_values_vals w v i n q I H Iq).
  unfold set_probability. rewrite K. destruct (own_index_cases n x) as [[U ->]|[U (l & -> & SO)]]; [left; auto|]. cbn [rbind].
  destruct (known_dec w n pv) as [G|(q & y & Iq & D & N)].
  - right. split; [intros [X|(q & y & Iq & D & N)]; [contradiction|]; exact (N (G q y Iq D))|].
    rewrite (sels_ok (whp w) n (vals_of w) PV pv G). cbn [rbind].
    destruct (iv_s w I i n (proj2 H) K) as [(int & a & EC & _) _]. assert (SH := own_shape' w v i n I H).
    unfold put. rewrite EC in *. cbn [tarr] in SH. unfold assign.
    assert (SI : Forall2 sel_in (map Fix l ++ map (selector (vals_of w) pv) (nporder n)) (shape a)).
    { rewrite SH. apply Forall2_app; [exact SO|]. apply (selectors_in n); [apply incl_refl|exact G]. }
    rewrite (sel_ok_in _ _ SI). cbn [rbind]. eexists. reflexivity.
  - left. split; [right; exists q, y; auto|]. rewrite (sels_unknown (whp w) n (vals_of w) PV pv q y Iq D N). reflexivity.
Qed.

Theorem calls_raise w o : reached w -> within w o -> objects_exist w o ->
  (forall e, snd (exec w o) = Err e <-> raises w o e) /\ (snd (exec w o) <> Ok tt -> fst (exec w o) = w).
Proof.
  intros R WI OE. assert (I := reached_inv w R). assert (C := iv_c w I).
  assert (GM : forall v, dmem v (ggraph (wnet w)) = true <-> In v (names w)).
  { intros v. rewrite (graph_mem w C). unfold names. rewrite dmem_In. reflexivity. }
  assert (GF : forall v, dmem v (ggraph (wnet w)) = false <-> ~ In v (names w)).
  { intros v. rewrite <- GM, not_true_iff_false. reflexivity. }
  assert (FINE : forall w', (forall e, ~ raises w o e) -> exec w o = (w', Ok tt) ->
    (forall e, snd (exec w o) = Err e <-> raises w o e) /\ (snd (exec w o) <> Ok tt -> fst (exec w o) = w)).
  { intros w' N E. rewrite E. cbn. split; [|congruence]. intros e. split; [discriminate|]. intros X. destruct (N e X). }
  assert (FAIL : forall e0, raises w o e0 -> (forall e, raises w o e -> e = e0) -> exec w o = (w, Err e0) ->
    (forall e, snd (exec w o) = Err e <-> raises w o e) /\ (snd (exec w o) <> Ok tt -> fst (exec w o) = w)).
  { intros e0 X U E. rewrite E. cbn. split; [|reflexivity]. intros e. split; [intros [= <-]; exact X|]. intros X'. now rewrite (U e X'). }
  assert (OKS : forall w' r, exec w o = (w', r) -> r = Ok tt -> exec w o = (w', Ok tt)) by (intros; congruence).
  destruct o as [k nm vs|i|u v|u v|r|r vs|r new| |i int a|i x p pv|nm mt|i mt]; cbn [within objects_exist] in *.
  - eapply FINE; [|reflexivity]. intros e X. inversion X.
  - destruct OE as (n & Hn). cbn [exec] in *. unfold add_node in *. rewrite Hn in *.
    destruct (dmem (nname n) (lookup (wnet w))) eqn:E.
    + apply (FAIL ValueError); [|intros e X; inversion X; reflexivity|reflexivity]. apply (R_twice w i n Hn). apply dmem_In, E.
    + eapply FINE; [|reflexivity]. intros e X. inversion X as [? n' Hn' IN| | | | | |]; subst. assert (n' = n) by congruence. subst n'.
      apply dmem_In in IN. congruence.
  - destruct (names_dec w u) as [Iu|Nu], (names_dec w v) as [Iv|Nv].
    1: { apply (in_names w u C) in Iu as Iu'. destruct Iu' as (pu & m & Hu). apply (in_names w v C) in Iv as Iv'. destruct Iv' as (c & n & Hv).
         eapply FINE; [|cbn [exec]; exact (add_edge_run w u v pu m c n I Hu Hv WI)]. intros e X. inversion X; subst. tauto. }
    all: apply (FAIL PlainException); [constructor; tauto|intros e X; inversion X; reflexivity|]; cbn [exec]; unfold add_edge, raise.
    + apply GF in Nv. now rewrite Nv, andb_false_r.
    + apply GF in Nu. now rewrite Nu.
    + apply GF in Nu. now rewrite Nu.
  - destruct (names_dec w u) as [Iu|Nu], (names_dec w v) as [Iv|Nv].
    1: { apply (in_names w u C) in Iu as Iu'. destruct Iu' as (pu & m & Hu). apply (in_names w v C) in Iv as Iv'. destruct Iv' as (c & n & Hv).
         destruct (existsb (edge_eqb (u, v)) (gedges (wnet w))) eqn:EE.
         - apply edges_bool in EE. eapply FINE; [|cbn [exec]; exact (remove_edge_run w u v pu m c n I Hu Hv EE)]. intros e X. inversion X; subst. contradiction.
         - apply edges_boolF in EE. destruct (remove_edge_absent w u v I EE) as [A B]. apply (FAIL KeyError); [constructor; assumption|intros e X; inversion X; reflexivity|].
           cbn [exec]. destruct (remove_edge w u v); cbn in *. subst. now rewrite (B Iu Iv). }
    all: eapply FINE; [intros e X; inversion X; subst; contradiction|]; cbn [exec]; unfold remove_edge, ret.
    + apply GF in Nv. rewrite Nv, andb_false_r. reflexivity.
    + apply GF in Nu. rewrite Nu. reflexivity.
    + apply GF in Nu. rewrite Nu. reflexivity.
  - destruct (names_dec w (ref_name (whp w) r)) as [Ir|Nr].
    + apply (in_names w _ C) in Ir. destruct Ir as (pr & m & Hr). destruct (remove_node_run w _ pr m I Hr) as (h' & E & _).
      eapply FINE; [intros e X; inversion X|cbn [exec]; exact E].
    + eapply FINE; [intros e X; inversion X|]. cbn [exec]. unfold remove_node. apply GF in Nr. rewrite Nr. reflexivity.
  - destruct (names_dec w (ref_name (whp w) r)) as [Ir|Nr].
    + apply (in_names w _ C) in Ir as Ir'. destruct Ir' as (pr & m & Hr). destruct (change_values_run w _ pr m vs I Hr) as (h' & E & _).
      eapply FINE; [intros e X; inversion X; subst; contradiction|cbn [exec]; exact E].
    + apply (FAIL PlainException); [constructor; assumption|intros e X; inversion X; reflexivity|]. cbn [exec]. unfold change_node_values.
      rewrite (proj2 (dget_None _ _) Nr). reflexivity.
  - destruct WI as [(s & ->) FR]. cbn [ref_name] in FR. destruct (names_dec w s) as [Is|Ns].
    + apply (in_names w _ C) in Is as Is'. destruct Is' as (pr & m & Hs). destruct (rename_keeps w s new pr m R Hs FR) as (E & _).
      eapply FINE; [intros e X; inversion X; subst; contradiction|]. rewrite (surjective_pairing (exec w _)), E. reflexivity.
    + apply (FAIL PlainException); [constructor; assumption|intros e X; inversion X; reflexivity|]. cbn [exec]. unfold change_node_name. cbn [ref_name].
      rewrite (proj2 (dget_None _ _) Ns). reflexivity.
  - eapply FINE; [|reflexivity]. intros e X. inversion X.
  - destruct OE as (v & n & H). destruct (set_cpd_accepts w v i n int a R H) as [A B].
    destruct (list_eq_dec Nat.eq_dec (shape a) (right_shape w n)) as [E|N].
    + destruct (A E) as [E' _]. eapply FINE; [|rewrite (surjective_pairing (exec w _)), E'; reflexivity]. intros e X. inversion X as [| | | | |v' i' n' ? ? H' N'|]; subst.
      assert (n' = n) by (destruct H, H'; congruence). subst n'. contradiction.
    + apply (FAIL ValueError); [exact (R_shape w v i n int a H N)|intros e X; inversion X; reflexivity|exact (B N)].
  - destruct OE as (v & n & H). cbn [exec] in *. unfold on_node in *. rewrite (proj2 H) in *.
    destruct (set_prob_cases w v i n x p pv I H) as [[U E]|[U (n' & E)]]; rewrite E in *.
    + apply (FAIL ValueError); [exact (R_value w v i n x p pv H U)|intros e X; inversion X; reflexivity|reflexivity].
    + eapply FINE; [|reflexivity]. intros e X. inversion X as [| | | | | |v' i' n1 ? ? ? H' U']; subst.
      assert (n1 = n) by (destruct H, H'; congruence). subst n1. contradiction.
  - eapply FINE; [|reflexivity]. intros e X. inversion X.
  - destruct OE as (n & Hn). cbn [exec] in *. unfold on_node in *. rewrite Hn in *. eapply FINE; [|reflexivity]. intros e X. inversion X.
Qed.
