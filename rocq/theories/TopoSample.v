(** Forward sampling in the order of networkx's topological sort. *)
From Verif Require Import Base NDArray Factor Exact Spec OrderSpec TreeSpec BaseFacts SpecFacts Sampling MCSpec MCFacts MCProof MCTop MCChain MCForward Topo TopoSpec TopoProof.

Lemma net_graph_ok b : sampled_net b -> graph (border b) (bedges b).
Proof.
  intros SN. destruct (sn_graph b SN) as [P N E]. split; [eapply Permutation_NoDup; eassumption|]. split; [apply (sn_once b SN)|].
  intros u v I. destruct (E u v I) as (A & B & _). split; eapply Permutation_in; eassumption.
Qed.

Section Net.
Variable b : bn.
Hypothesis SN : sampled_net b.
Notation order := (fst (topological_sort (border b) (bedges b))).

Lemma order_parents pre v post n : order = pre ++ v :: post -> In n (bnodes b) -> dn_name n = v -> incl (map fst (dn_parents n)) pre.
Proof.
  intros E Hn Nv u Hu. apply (sort_sorted _ _ (net_graph_ok b SN) pre v post u E). apply (sn_edges b SN). exists n. auto.
Qed.

Theorem sort_topological : acyclic (bedges b) -> topological b order.
Proof.
  intros A. split; [|exact order_parents]. destruct (sort_acyclic _ _ (net_graph_ok b SN) A) as [_ P].
  etransitivity; [apply (wg_nodes b (sn_graph b SN))|exact P].
Qed.

Lemma partial_steps ev g : rng_ok g -> legal_ev b ev -> forall post pre st k, order = pre ++ post -> settled b ev pre st ->
  exists st' k', foldM (sample_one g b ev) post (st, k) = Ok (st', k') /\ settled b ev order st'.
Proof.
  intros RG LE. induction post as [|v post IH]; intros pre st k E S.
  { exists st, k. rewrite app_nil_r in E. rewrite E. now split. }
  assert (Hv : In v (bnames b)).
  { eapply Permutation_in; [symmetry; apply (wg_nodes b (sn_graph b SN))|]. apply (sort_yields _ _ (net_graph_ok b SN)). rewrite E. apply in_or_app. right. now left. }
  assert (E' : order = (pre ++ [v]) ++ post) by now rewrite <- app_assoc.
  cbn [foldM]. unfold sample_one at 1. cbn [fst snd].
  destruct (dmem v ev) eqn:M.
  - cbn [rbind]. apply (IH (pre ++ [v]) st k E'). split; [apply S|]. intros u Hu. apply in_app_or in Hu as [Hu|[<-|[]]]; [now apply S|].
    apply dmem_In, dget_key in M as (y & Y). exists y. split; [now apply S|]. now apply LE.
  - destruct (node_of b SN v Hv) as (n & Hn & N & GN & V & NE & ND). rewrite GN. cbn [rbind].
    destruct (children_ok b (sn_bn b SN) (sn_graph b SN) (sn_edges b SN) (sn_once b SN) v Hv) as (cs & GC & _). rewrite GC. cbn [rbind].
    assert (PP : incl (map fst (dn_parents n)) pre) by (eapply order_parents; eauto).
    assert (FW := forward_weights b SN n st st Hn (fun p Hp => proj2 S p (PP p Hp)) (fun p _ => eq_refl) cs).
    destruct (sv_total g k n st cs true _ FW (conditional_nonneg b SN n st Hn) (proj1 (RG k)) (proj2 (RG k)) NE) as (y & Hy & Ey).
    rewrite Ey. cbn [rbind]. apply (IH (pre ++ [v]) (dset v y st) (Datatypes.S k) E').
    split; [apply keeps_dset; [apply S|now apply dmem_nIn]|].
    intros u Hu. rewrite dget_dset. destruct (String.eqb_spec u v) as [->|X]; [exists y; split; [reflexivity|now rewrite V]|].
    apply in_app_or in Hu as [Hu|[Hu|[]]]; [now apply S|congruence].
Qed.

Lemma partial_sample ev g k : rng_ok g -> NoDup (dkeys ev) -> legal_ev b ev -> exists r, get_sample g k b order ev = Ok r.
Proof.
  intros RG N LE. destruct (partial_steps ev g RG LE order [] _ k eq_refl (init_settled b ev N)) as (st & k' & E & _). exists (st, k'). exact E.
Qed.

(** The model with the order left open, instantiated. *)
Lemma sample_acyclic g k ev : acyclic (bedges b) -> get_sample_nx g k b ev = get_sample g k b order ev.
Proof.
  intros A. unfold get_sample_nx. destruct (sort_acyclic _ _ (net_graph_ok b SN) A) as [E _]. rewrite E. cbv zeta.
  destruct (get_sample g k b order ev); reflexivity.
Qed.

Lemma marginals_acyclic t burnIn full n g vs ev : acyclic (bedges b) ->
  mcmc_marginals_nx t burnIn full n g b vs ev = mcmc_marginals t burnIn full n g b order vs ev.
Proof. intros A. unfold mcmc_marginals_nx. destruct (sort_acyclic _ _ (net_graph_ok b SN) A) as [E _]. rewrite E. reflexivity. Qed.

Lemma sample_cyclic g k ev : ~ acyclic (bedges b) -> rng_ok g -> NoDup (dkeys ev) -> legal_ev b ev ->
  get_sample_nx g k b ev = Err NetworkXUnfeasible.
Proof.
  intros A RG N LE. unfold get_sample_nx. cbv zeta. destruct (partial_sample ev g k RG N LE) as (r & E). rewrite E. cbn [rbind].
  rewrite (sort_cyclic _ _ (net_graph_ok b SN) A). reflexivity.
Qed.

Lemma marginals_cyclic t burnIn full n g vs ev : ~ acyclic (bedges b) -> rng_ok g -> NoDup (dkeys ev) -> legal_ev b ev ->
  mcmc_marginals_nx t burnIn full n g b vs ev = Err NetworkXUnfeasible.
Proof.
  intros A RG N LE. unfold mcmc_marginals_nx. cbv zeta. rewrite (sort_cyclic _ _ (net_graph_ok b SN) A).
  destruct (partial_sample ev g 0 RG N LE) as (r & E). rewrite E. reflexivity.
Qed.
End Net.
