(** Chains exceed every recursion limit. *)
From Coq Require Import Relations.
From Verif Require Import Base BaseFacts NDArray NDArrayFacts Factor FactorFacts FactorProofs Exact Spec SpecFacts
  Order OrderSpec OrderProof JoinTree HuginPure Hugin JTProof JTProof2 JTBuild JTBuild2 JTBuild3 TreeSpec JTTop JTJunction JTHistory JTAgain JTAgain2 JTAgain3 JTDefault
  RecLimit RecLimitSpec RecLimitProof RecLimitTop.

(** One member of a clique interacts with all others; if the order is perfect, each one does. *)
Lemma create_cliques {SO : SetOrder} b o order t : suits b o -> nonneg_bn b -> order_or_default b order = Ok o -> create_jointree b order = Ok t ->
  exists r sv, jt_ok b t r sv /\
    (forall k u, In u (cvo t k) -> exists w, forall v, In v (cvo t k) -> v = w \/ interacts b w v) /\
    (perfect_order b o -> forall k u v, In u (cvo t k) -> In v (cvo t k) -> u <> v -> interacts b u v).
Proof.
  intros [WB WG EM NE PO OP DC] NN EO EC.
  destruct (clusters_ok b WB WG EM o PO DC NE OP) as (cs & L & E1 & E2 & C & P).
  destruct (build_jt_ok b WB o PO DC NE cs L C P) as (r & J).
  destruct (loaded_all b WB (build_tree L) r (svL L) NN J) as (t' & E & S & V & LD).
  - rewrite <- clear_build. apply trivial_clear.
  - rewrite <- clear_build. apply load_clear.
  - unfold create_jointree in EC. rewrite EO in EC. cbn [rbind] in EC. rewrite E1 in EC. cbn [rbind] in EC. rewrite E2 in EC. cbn [rbind] in EC. rewrite E in EC. inversion EC; subst t'.
    exists r, (svL L). split; [eapply jt_ok_same; [reflexivity|symmetry; exact S|exact J]|].
    destruct (build_facts b o PO DC NE cs L C P) as (CN & NDK & LN & CVO & KK).
    assert (W : forall k u, In u (cvo t k) -> exists c, In c L /\ cvo t k = c).
    { intros k u Hu. rewrite (cvo_skel _ _ S) in Hu |- *. assert (Kk : In k (dkeys (tnodes (build_tree L)))).
      { rewrite <- vars_keys. unfold cvo in Hu. destruct (dget k (vars_of (build_tree L))) eqn:EG; [|destruct Hu]. apply dget_In in EG. apply in_map_iff. eexists. split; [|exact EG]. reflexivity. }
      apply KK in Kk. apply in_map_iff in Kk as (c & <- & Hc). exists c. split; [exact Hc|apply CVO, Hc]. }
    split.
    + intros k u Hu. destruct (W k u Hu) as (c & Hc & ->). assert (Hc' := proj1 (proj2 (proj2 P)) c Hc). apply in_split in Hc' as (pre & post & Ec).
      destruct (clus_split _ _ _ C pre c post Ec) as (o1 & w & o2 & l & _ & -> & _ & HL & _). exists w. intros v [<-|Hv]; [auto|]. right. apply HL, Hv.
    + intros PF k u v Hu Hv N. destruct (W k u Hu) as (c & Hc & Ek). rewrite Ek in Hu, Hv.
      apply (clus_clique (interacts b) (interacts_sym b) o cs C PF c u v (proj1 (proj2 (proj2 P)) c Hc) Hu Hv N).
Qed.

(** Steps between the indices of interacting variables. *)
Section Steps.
Variables (idx : string -> nat) (cv sv : string -> list string) (d : nat).
Hypothesis near : forall k u v, In u (cv k) -> In v (cv k) -> idx u <= d + idx v.

Lemma spread_height r : rjt cv sv r -> seps_ne sv r -> forall k u v, In k (rkeys r) -> In u (cv (rkey r)) -> In v (cv k) -> idx u <= idx v + d * height r /\ idx v <= idx u + d * height r.
Proof.
  induction r as [k0 cs IH] using rtree_ind'. intros R N k u v Hk Hu Hv. inversion R as [? ? _ _ Rc Ic _ _]; subst. inversion N as [? ? Nc Nr]; subst. cbn [rkeys rkey] in *.
  destruct Hk as [<-|Hk].
  - assert (A := near k0 u v Hu Hv). assert (B := near k0 v u Hv Hu). cbn [height]. nia.
  - apply in_flat_map in Hk as (c & Hc & Hk). rewrite Forall_forall in IH, Rc, Ic, Nc, Nr.
    assert (SN := Nc c Hc). destruct (sv (rkey c)) as [|s rest] eqn:Es; [congruence|].
    assert (Hs : In s (sv (rkey c))) by (rewrite Es; now left).
    assert (S1 : In s (cv k0)) by (apply (Ic c Hc), Hs).
    assert (S2 : In s (cv (rkey c))) by (apply (rjt_sv_incl cv sv c (Rc c Hc)), Hs).
    destruct (IH c Hc (Rc c Hc) (Nr c Hc) k s v Hk S2 Hv) as [A B]. assert (C := near k0 u s Hu S1). assert (D := near k0 s u S1 Hu).
    assert (L := height_child k0 cs c Hc). nia.
Qed.
End Steps.

(** ** The names *)
Lemma xname_len i : String.length (xname i) = S i.
Proof. induction i as [|i IH]; cbn; [reflexivity|]. rewrite IH. reflexivity. Qed.
Lemma xname_inj i j : xname i = xname j -> i = j.
Proof. intros E. apply (f_equal String.length) in E. rewrite !xname_len in E. lia. Qed.
Lemma xname_prefix : forall i j s, xname j = (xname i ++ s)%string -> s = "".
Proof.
  induction i as [|i IH]; intros [|j] s E; cbn in E; inversion E as [X]; [reflexivity|]. apply (IH j s X).
Qed.
Definition xidx (v : string) : nat := pred (String.length v).
Lemma xidx_name i : xidx (xname i) = i.
Proof. unfold xidx. rewrite xname_len. reflexivity. Qed.

Section Chain.
Variable n : nat.
Notation b := (chain_of n).

Lemma chain_nodes m : In m (bnodes b) <-> m = xroot 0 \/ exists i, i < n /\ m = xlink i.
Proof.
  cbn [bnodes chain_of]. split.
  - intros [<-|H]; [now left|right]. apply in_map_iff in H as (i & <- & Hi). apply in_seq in Hi. exists i. split; [lia|reflexivity].
  - intros [->|(i & Hi & ->)]; [now left|right]. apply in_map, in_seq. lia.
Qed.

Lemma chain_names : bnames b = map xname (seq 0 (S n)).
Proof. unfold bnames. cbn [bnodes chain_of map seq]. f_equal. rewrite map_map, <- seq_shift, map_map. reflexivity. Qed.

Lemma chain_name v : In v (bnames b) <-> exists i, i <= n /\ v = xname i.
Proof.
  rewrite chain_names. split.
  - intros H. apply in_map_iff in H as (i & <- & Hi). apply in_seq in Hi. exists i. split; [lia|reflexivity].
  - intros (i & Hi & ->). apply in_map, in_seq. lia.
Qed.

Lemma chain_nodup : NoDup (bnames b).
Proof. rewrite chain_names. apply FinFun.Injective_map_NoDup; [exact xname_inj|apply seq_NoDup]. Qed.

Lemma chain_family m u : In m (bnodes b) -> In u (dn_name m :: map fst (dn_parents m)) -> exists i, i <= n /\ u = xname i /\ (dn_name m = u \/ i < n /\ dn_name m = xname (S i)).
Proof.
  intros Hm. apply chain_nodes in Hm as [->|(i & Hi & ->)]; cbn [xroot xlink dn_name dn_parents map fst].
  - intros [<-|[]]. exists 0. split; [lia|auto].
  - intros [<-|[<-|[]]]; [exists (S i)|exists i]; (split; [lia|]); auto.
Qed.

Lemma chain_wf : wf_bn b.
Proof.
  split; [apply chain_nodup|]. intros m Hm. assert (Hm0 := Hm). apply chain_nodes in Hm as [->|(i & Hi & ->)].
  - constructor; cbn.
    + split; [discriminate|]. apply nodup_s_spec. reflexivity.
    + constructor; [tauto|constructor].
    + intros p vals [].
    + reflexivity. + reflexivity. + constructor.
  - constructor; cbn [xlink dn_name dn_values dn_parents dn_pdict dn_cpd map fst snd].
    + split; [discriminate|]. apply nodup_s_spec. reflexivity.
    + constructor; [|constructor; [tauto|constructor]]. intros [E|[]]. change (xname i = xname (S i)) in E. apply xname_inj in E. lia.
    + intros p vals [E|[]]. inversion E; subst. destruct i as [|i]; [exists (xroot 0)|exists (xlink i)]; (split; [apply chain_nodes; (now left) || (right; exists i; split; [lia|reflexivity])|split; reflexivity]).
    + reflexivity. + reflexivity. + apply Permutation_refl.
Qed.

Lemma chain_edges u v : In (u, v) (bedges b) <-> exists i, i < n /\ u = xname i /\ v = xname (S i).
Proof.
  cbn [bedges chain_of]. split.
  - intros H. apply in_map_iff in H as (i & E & Hi). apply in_seq in Hi. inversion E; subst. exists i. split; [lia|split; reflexivity].
  - intros (i & Hi & -> & ->). apply in_map_iff. exists i. split; [reflexivity|]. apply in_seq. lia.
Qed.

Lemma chain_graph : wf_graph b.
Proof.
  split.
  - rewrite chain_names. apply Permutation_refl.
  - apply chain_nodup.
  - intros u v H. apply chain_edges in H as (i & Hi & -> & ->). split; [|split]; [apply chain_name; exists i; split; [lia|reflexivity]|apply chain_name; exists (S i); split; [lia|reflexivity]|].
    intros E. apply xname_inj in E. lia.
Qed.

Lemma chain_nonneg : nonneg_bn b.
Proof.
  intros m Hm. apply chain_nodes in Hm as [->|(i & _ & ->)]; cbn; repeat constructor; discriminate.
Qed.

Lemma chain_match : edges_match b.
Proof.
  intros u v. rewrite chain_edges. split.
  - intros (i & Hi & -> & ->). exists (xlink i). split; [apply chain_nodes; right; eauto|]. split; [reflexivity|now left].
  - intros (m & Hm & <- & Hu). apply chain_nodes in Hm as [->|(i & Hi & ->)]; cbn in Hu; [destruct Hu|]. destruct Hu as [<-|[]]. exists i. auto.
Qed.

Lemma chain_single : single_parent b.
Proof. intros m Hm. apply chain_nodes in Hm as [->|(i & _ & ->)]; cbn; lia. Qed.

Lemma chain_ranked : ranked b xidx.
Proof. intros u v H. apply chain_edges in H as (i & _ & -> & ->). rewrite !xidx_name. lia. Qed.

Lemma chain_step i : i < n -> interacts b (xname i) (xname (S i)).
Proof.
  intros H. split; [intros E; apply xname_inj in E; lia|]. exists (xlink i). split; [apply chain_nodes; right; eauto|]. cbn [xlink dn_name dn_parents map fst In]. auto.
Qed.

Lemma chain_reach i j : i <= j -> j <= n -> clos_refl_trans string (interacts b) (xname i) (xname j) /\ clos_refl_trans string (interacts b) (xname j) (xname i).
Proof.
  induction 1 as [|j L IH]; intros H; [split; apply rt_refl|]. destruct IH as [A B]; [lia|]. assert (X := chain_step j ltac:(lia)). split.
  - eapply rt_trans; [exact A|]. apply rt_step, X.
  - eapply rt_trans; [|exact B]. apply rt_step. apply interacts_sym, X.
Qed.

Lemma chain_one : one_component b.
Proof.
  intros u v Hu Hv. apply chain_name in Hu as (i & Hi & ->), Hv as (j & Hj & ->). destruct (Nat.le_ge_cases i j) as [L|L]; [apply (proj1 (chain_reach i j L Hj))|apply (proj2 (chain_reach j i L Hi))].
Qed.

Lemma chain_prefix : prefix_free (bnames b).
Proof.
  split.
  - intros H. apply chain_name in H as (i & _ & E). apply (f_equal String.length) in E. rewrite xname_len in E. discriminate.
  - intros x y s Hx Hy E. apply chain_name in Hx as (i & _ & ->), Hy as (j & _ & ->). apply (xname_prefix i j s E).
Qed.

Lemma chain_suits {SO : SetOrder} : exists o, order_or_default b None = Ok o /\ suits b o.
Proof.
  apply (tree_default_suits b xidx chain_wf chain_graph chain_match chain_single chain_ranked); [discriminate|exact chain_one|exact chain_prefix].
Qed.

Lemma chain_perfect o : order_or_default b None = Ok o -> perfect_order b o.
Proof. exact (tree_default_perfect b xidx chain_wf chain_graph chain_match chain_single chain_ranked o). Qed.

Lemma chain_near u v : interacts b u v -> xidx u <= S (xidx v).
Proof.
  intros (_ & m & Hm & Hu & Hv). destruct (chain_family m u Hm Hu) as (i & _ & -> & Ei). destruct (chain_family m v Hm Hv) as (j & _ & -> & Ej). rewrite !xidx_name.
  destruct Ei as [Ei|[_ Ei]], Ej as [Ej|[_ Ej]]; rewrite Ei in Ej; apply xname_inj in Ej; lia.
Qed.

Theorem chain_deep {SO : SetOrder} o order t limit : suits b o -> order_or_default b order = Ok o -> create_jointree b order = Ok t ->
  4 * limit < n \/ perfect_order b o /\ 2 * limit < n -> deep t limit.
Proof.
  intros SU EO EC H. destruct (create_cliques b o order t SU chain_nonneg EO EC) as (r & sv & J & HB & CL).
  assert (near : exists d, (d <= 1 \/ d <= 2 /\ 4 * limit < n) /\ 2 * limit < n /\ forall k u v, In u (cvo t k) -> In v (cvo t k) -> xidx u <= d + xidx v).
  { destruct H as [H|[PF H]].
    - exists 2. split; [lia|]. split; [lia|]. intros k u v Hu Hv. destruct (HB k u Hu) as (w & HW).
      destruct (HW u Hu) as [->|A], (HW v Hv) as [->|B]; [lia| | |].
      + apply chain_near in B. lia.
      + apply (interacts_sym b), chain_near in A. lia.
      + apply chain_near in B. apply (interacts_sym b), chain_near in A. lia.
    - exists 1. split; [lia|]. split; [lia|]. intros k u v Hu Hv. destruct (String.eqb_spec u v) as [->|N]; [lia|]. apply chain_near, (CL PF k u v Hu Hv N). }
  clear H. destruct near as (d & Hd & H & near).
  assert (HK : forall i, i <= n -> exists k, In k (rkeys r) /\ In (xname i) (cvo t k)).
  { intros i Hi. assert (Hin : In (xname i) (bnames b)) by (apply chain_name; eauto). apply (Permutation_in _ (Permutation_sym (V_names b chain_wf t r sv J))) in Hin. apply V_in in Hin. exact Hin. }
  assert (RT : In (rkey r) (rkeys r)) by apply rkey_in.
  destruct (HK 0 ltac:(lia)) as (k0 & Hk0 & H0). destruct (HK n ltac:(lia)) as (k1 & Hk1 & H1).
  assert (NEr : exists u, In u (cvo t (rkey r))).
  { destruct r as [k cs]. cbn [rkey]. destruct cs as [|c cs].
    - cbn in Hk0. destruct Hk0 as [<-|[]]. eauto.
    - assert (N := jo_sne _ _ _ _ J). inversion N as [? ? Nc _]; subst. inversion Nc as [|? ? Nc1 _]; subst. assert (R := jo_rjt _ _ _ _ J). inversion R as [? ? _ _ _ Ic _ _]; subst.
      inversion Ic as [|? ? I1 _]; subst. destruct (sv (rkey c)) as [|s l]; [congruence|]. exists s. apply I1. now left. }
  destruct NEr as (u & Hu).
  destruct (spread_height xidx (cvo t) sv d near r (jo_rjt _ _ _ _ J) (jo_sne _ _ _ _ J) k0 u (xname 0) Hk0 Hu H0) as [A _].
  destruct (spread_height xidx (cvo t) sv d near r (jo_rjt _ _ _ _ J) (jo_sne _ _ _ _ J) k1 u (xname n) Hk1 Hu H1) as [_ B].
  rewrite !xidx_name in *. destruct (jo_root _ _ _ _ J) as (rest & Er).
  destruct (height_walk (tadj t) r None limit (jo_adj _ _ _ _ J) (jo_rnodup _ _ _ _ J)) as (l & El & W & ND & _); [nia|]. exists (rkey r), rest, l. auto.
Qed.
End Chain.
