(** Decision procedures for the hypotheses of the sampling theorems. *)
From Verif Require Import Base NDArray Factor Exact Spec OrderSpec TreeSpec BaseFacts SpecFacts FactorSpec FactorProofs Checks Sampling MCSpec MCProof MCTop.

Definition completeb (b : bn) (st : state) : bool :=
  forallb (fun v => match dget v st with Some x => mem x (values_of b v) | None => false end) (bnames b).

Lemma completeb_ok b st : completeb b st = true -> complete b st.
Proof.
  intros H v Hv. unfold completeb in H. rewrite forallb_forall in H. specialize (H v Hv).
  destruct (dget v st) as [x|]; [|discriminate]. exists x. split; [reflexivity|]. now apply mem_In.
Qed.

Definition keepsb (ev st : state) : bool :=
  forallb (fun p => match dget (fst p) st with Some x => String.eqb x (snd p) | None => false end) ev.

Lemma keepsb_ok ev st : keepsb ev st = true -> keeps ev st.
Proof.
  intros H v x D. apply dget_In in D. unfold keepsb in H. rewrite forallb_forall in H. specialize (H _ D). cbn [fst snd] in H.
  destruct (dget v st) as [y|]; [|discriminate]. apply String.eqb_eq in H. now subst.
Qed.

Definition legal_evb (b : bn) (ev : state) : bool :=
  forallb (fun p => negb (mem (fst p) (bnames b)) || mem (snd p) (values_of b (fst p))) ev.

Lemma legal_evb_ok b ev : legal_evb b ev = true -> legal_ev b ev.
Proof.
  intros H v x Hv D. apply dget_In in D. unfold legal_evb in H. rewrite forallb_forall in H. specialize (H _ D). cbn [fst snd] in H.
  apply orb_prop in H as [H|H]; [|now apply mem_In]. apply negb_true_iff, mem_nIn in H. contradiction.
Qed.

Fixpoint topob (b : bn) (pre l : list string) : bool :=
  match l with
  | [] => true
  | v :: l' => match get_node b v with Ok n => subset (map fst (dn_parents n)) pre | Err _ => false end && topob b (pre ++ [v]) l'
  end.

Lemma topob_ok b : wf_bn b -> forall l pre, topob b pre l = true ->
  forall p v q n, l = p ++ v :: q -> In n (bnodes b) -> dn_name n = v -> incl (map fst (dn_parents n)) (pre ++ p).
Proof.
  intros WB. induction l as [|u l IH]; intros pre H p v q n E Hn N; [destruct p; discriminate|].
  cbn [topob] in H. apply andb_prop in H as [H1 H2]. destruct p as [|u' p].
  - injection E as -> ->. subst v. rewrite (get_node_ok b WB n Hn) in H1. rewrite app_nil_r. now apply subset_spec.
  - injection E as -> ->. change (u' :: p) with ([u'] ++ p). rewrite app_assoc. eapply IH; eauto.
Qed.

Lemma topological_ok b l : wf_bn b -> permb (bnames b) l = true -> topob b [] l = true -> topological b l.
Proof.
  intros WB P T. split; [now apply permb_ok|]. intros pre v post n E Hn N. exact (topob_ok b WB l [] T pre v post n E Hn N).
Qed.

(** The arcs. *)
Definition arcs (b : bn) : list (string * string) :=
  flat_map (fun n => map (fun p => (fst p, dn_name n)) (dn_parents n)) (bnodes b).
Definition eqb_arc (a c : string * string) : bool := String.eqb (fst a) (fst c) && String.eqb (snd a) (snd c).
Definition mem_arc a l := existsb (eqb_arc a) l.
Lemma mem_arc_ok a l : mem_arc a l = true <-> In a l.
Proof.
  unfold mem_arc. rewrite existsb_exists. split.
  - intros ([x y] & H & E). destruct a. apply andb_prop in E as [E1 E2]. cbn [fst snd] in *. apply String.eqb_eq in E1, E2. now subst.
  - intros H. exists a. split; [exact H|]. unfold eqb_arc. now rewrite !String.eqb_refl.
Qed.
Fixpoint nodup_arcs (l : list (string * string)) : bool :=
  match l with [] => true | a :: l' => negb (mem_arc a l') && nodup_arcs l' end.
Lemma nodup_arcs_ok l : nodup_arcs l = true -> NoDup l.
Proof.
  induction l as [|a l IH]; intros H; constructor; cbn [nodup_arcs] in H; apply andb_prop in H as [H1 H2]; auto.
  intros X. apply mem_arc_ok in X. now rewrite X in H1.
Qed.

Definition edges_matchb (b : bn) : bool :=
  forallb (fun a => mem_arc a (arcs b)) (bedges b) && forallb (fun a => mem_arc a (bedges b)) (arcs b).

Lemma arcs_spec b u v : In (u, v) (arcs b) <-> exists n, In n (bnodes b) /\ dn_name n = v /\ In u (map fst (dn_parents n)).
Proof.
  unfold arcs. rewrite in_flat_map. split.
  - intros (n & Hn & H). apply in_map_iff in H as (p & E & Hp). injection E as <- <-. exists n. split; [exact Hn|]. split; [reflexivity|].
    now apply in_map.
  - intros (n & Hn & <- & H). apply in_map_iff in H as (p & <- & Hp). exists n. split; [exact Hn|]. apply in_map_iff. now exists p.
Qed.

Lemma edges_matchb_ok b : edges_matchb b = true -> edges_match b.
Proof.
  intros H u v. apply andb_prop in H as [H1 H2]. rewrite forallb_forall in H1, H2. rewrite <- arcs_spec. split; intros X.
  - now apply mem_arc_ok, H1.
  - now apply mem_arc_ok, H2.
Qed.

Lemma sampled_ok b : wf_bnb b = true -> wf_graphb b = true -> edges_matchb b = true -> nodup_arcs (bedges b) = true ->
  nonnegb b = true -> sampled_net b.
Proof.
  intros A B C D E. constructor; auto using wf_bnb_ok, wf_graphb_ok, edges_matchb_ok, nodup_arcs_ok, nonnegb_ok.
Qed.

Lemma elsewhere_outside b v st : elsewhere b v st = outside b v st.
Proof.
  unfold elsewhere, outside, others_of, childb. f_equal. f_equal. apply filter_ext. intros m.
  unfold mem. cbn [existsb]. rewrite negb_orb. reflexivity.
Qed.

Lemma markov_weights b st v : sampled_net b -> complete b st -> In v (bnames b) ->
  exists n cs, get_node b v = Ok n /\ get_children b v = Ok cs /\
    forall x, In x (values_of b v) -> exists w, get_markov_prob n x cs (dset v x st) false = Ok w /\
      joint b (dset v x st) = (w * elsewhere b v st)%Qc.
Proof.
  intros SN C Hv. destruct (node_of b SN v Hv) as (n & Hn & E & GN & V & NE & ND).
  destruct (children_ok b (sn_bn b SN) (sn_graph b SN) (sn_edges b SN) (sn_once b SN) v Hv) as (cs & GC & P).
  exists n, cs. split; [exact GN|]. split; [exact GC|]. intros x Hx. subst v. eexists. split.
  - apply (markov_blanket b (sn_bn b SN)); auto using complete_dset, look_dset.
  - rewrite (joint_split b (sn_bn b SN) n _ Hn), outside_same, elsewhere_outside. reflexivity.
Qed.

Definition columnsb (n : dnode) : bool :=
  forallb (fun ix => qeqb (qsum (map (fun i => aget (dn_cpd n) (i :: ix)) (seq 0 (length (dn_values n))))) 1%Qc)
          (indices (map (fun p => length (snd p)) (dn_parents n))).
Definition stochasticb (b : bn) : bool := forallb columnsb (bnodes b).

Lemma position_lt x l : l <> [] -> position x l < length l.
Proof.
  intros N. unfold position. destruct (index_of x l) eqn:E; [now apply index_of_Some in E|]. destruct l; [contradiction|cbn; lia].
Qed.

Lemma columnsb_ok b n s : wf_bn b -> In n (bnodes b) -> columnsb n = true ->
  qsum (map (fun x => entry n ((dn_name n, x) :: s)) (dn_values n)) = 1%Qc.
Proof.
  intros WB Hn H. unfold columnsb in H. rewrite forallb_forall in H.
  set (ix := map (fun p => position (look s (fst p)) (snd p)) (dn_parents n)).
  pose proof (wb_nodes b WB n Hn) as WN.
  assert (I : In ix (indices (map (fun p => length (snd p)) (dn_parents n)))).
  { apply NDArrayFacts.In_indices, NDArrayFacts.inb_map. intros [p vals] Hp. cbn [fst snd]. apply position_lt.
    destruct (wn_pvals _ _ WN p vals Hp) as (m & M & _ & <-). apply (wn_values _ _ (wb_nodes b WB m M)). }
  specialize (H ix I). apply qeqb_true in H. rewrite <- H. destruct (wn_values _ _ WN) as [NE ND].
  assert (N := wn_parents _ _ WN). inversion N as [|? ? NP _]; subst.
  assert (E : forall x, In x (dn_values n) -> entry n ((dn_name n, x) :: s) = aget (dn_cpd n) (position x (dn_values n) :: ix)).
  { intros x Hx. unfold entry. cbn [map fst snd]. f_equal. f_equal.
    - unfold look. cbn [dget]. now rewrite String.eqb_refl.
    - apply map_ext_in. intros [p vals] Hp. cbn [fst snd]. unfold look. cbn [dget].
      rewrite eqb_neq_s; [reflexivity|]. intros ->. apply NP. apply in_map_iff. now exists (dn_name n, vals). }
  rewrite (qsum_map_ext _ _ _ E).
  rewrite <- (map_map (fun x => position x (dn_values n)) (fun i => aget (dn_cpd n) (i :: ix))). f_equal. f_equal.
  clear - ND. apply nth_ext with (d := 0) (d' := 0); [now rewrite map_length, seq_length|].
  intros i Hi. rewrite map_length in Hi. rewrite seq_nth by exact Hi.
  rewrite (nth_indep _ 0 (position "" (dn_values n))) by (now rewrite map_length).
  rewrite (map_nth (fun x => position x (dn_values n))). rewrite SpecFacts.position_idx. now apply idx_nth.
Qed.

Lemma stochasticb_ok b : wf_bn b -> stochasticb b = true -> stochastic_bn b.
Proof.
  intros WB H n s Hn. unfold stochasticb in H. rewrite forallb_forall in H. apply (columnsb_ok b n s WB Hn), H, Hn.
Qed.
