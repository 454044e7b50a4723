(** How large the clusters of a join tree are: polytrees, orders without fill-in, a decision procedure. *)
From Verif Require Import Base BaseFacts NDArray NDArrayFacts SumCalc Factor FactorFacts Exact Spec SpecFacts VEProof VEProof2 Order OrderSpec OrderProof
  JoinTree TreeSpec JTAgain3 JTDefault JTPolytree SepSpec TablesSpec TablesTop TreeTables TreeTablesSpec TreeTablesProof.

Lemma capped_ok x B r f : capped x B r = Ok f <-> r = Ok f /\ length (data (pot f)) <= B.
Proof.
  destruct r as [g|e]; cbn [capped]; [|split; [discriminate|intros [E _]; discriminate]].
  destruct (Nat.leb_spec (length (data (pot g))) B) as [L|L]; split.
  - intros E. injection E as <-. auto.
  - intros [E _]. exact E.
  - discriminate.
  - intros [E M]. injection E as <-. lia.
Qed.

Lemma capped_bad x B r e : capped x B r = Err e <-> r = Err e \/ e = x /\ exists f, r = Ok f /\ B < length (data (pot f)).
Proof.
  destruct r as [g|e']; cbn [capped].
  - destruct (Nat.leb_spec (length (data (pot g))) B) as [L|L]; split.
    + discriminate.
    + intros [E|(_ & f & E & M)]; [discriminate|]. injection E as <-. lia.
    + intros E. injection E as <-. right. eauto.
    + intros [E|(-> & _)]; [discriminate|reflexivity].
  - split; [auto|]. intros [E|(_ & f & E & _)]; [exact E|discriminate].
Qed.

Section Clusters.
Variable b : bn.
Hypothesis WB : wf_bn b.

Lemma node_entries n : In n (bnodes b) -> length (data (dn_cpd n)) = entries b (family n).
Proof.
  intros Hn. assert (W := wb_nodes b WB n Hn). rewrite (wn_arr b n W), (wn_shape b n W). unfold entries, family. cbn [map prodn fst snd].
  rewrite (values_of_node b WB n Hn). f_equal. rewrite map_map. f_equal. apply map_ext_in. intros [p vals] Hp. cbn [fst snd].
  destruct (wn_pvals b n W p vals Hp) as (m & Hm & <- & <-). rewrite (values_of_node b WB m Hm). reflexivity.
Qed.

Lemma family_in n v : In n (bnodes b) -> In v (family n) -> In v (bnames b).
Proof. intros Hn [<-|H]; [apply in_map, Hn|exact (parent_in b WB n v Hn H)]. Qed.

Lemma round_split o K pre v post : Permutation (bnames b) o -> o = pre ++ v :: post ->
  (forall u, In u K -> u = v \/ ~ In u pre /\ related b v u) -> forall u, In u K -> u = v \/ In u post /\ interacts b v u.
Proof.
  intros P E H u Hu. destruct (string_dec u v) as [->|N]; [left; reflexivity|]. destruct (H u Hu) as [|[M (n & Hn & H1 & H2)]]; [left; assumption|right].
  split; [|split; [congruence|exists n; auto]]. assert (I : In u o) by (apply (Permutation_in u P), (family_in n u Hn H2)). rewrite E in I.
  apply in_app_iff in I as [I|[I|I]]; [contradiction|congruence|exact I].
Qed.
End Clusters.

(** Trees without their directions, default order: no larger than the largest conditional probability table. *)
Theorem polytree_roomy {SO : SetOrder} b0 b o B : wf_bn b0 -> wf_graph b0 -> edges_match b0 -> polytree b0 -> order_or_default b0 None = Ok o ->
  same_arcs b0 b -> wf_bn b -> (forall n, In n (bnodes b) -> length (data (dn_cpd n)) <= B) -> roomy b o B.
Proof.
  intros WB0 WG EM PT Eo SA WB H K ND R. destruct (min_degree_greedy b0 WG) as (o' & E & P & G). cbn [order_or_default] in Eo.
  assert (o' = o) by congruence. subst o'.
  assert (SA' : same_arcs b b0) by (unfold same_arcs in *; congruence).
  destruct (same_round b b0 o K SA' R) as (pre & v & post & Ev & C).
  destruct (poly_family b0 WB0 WG EM PT o P G pre v post Ev) as (n0 & Hn0 & F).
  assert (X : In (dn_name n0, map fst (dn_parents n0)) (map (fun n => (dn_name n, map fst (dn_parents n))) (bnodes b))).
  { rewrite <- SA. apply (in_map (fun n => (dn_name n, map fst (dn_parents n)))), Hn0. }
  apply in_map_iff in X as (n & En & Hn). injection En as En1 En2.
  apply Nat.le_trans with (entries b (family n)); [|rewrite <- (node_entries b WB n Hn); apply H, Hn].
  apply entries_incl; [|exact ND|].
  - intros u Hu. apply (dom_some b WB), (family_in b WB n u Hn Hu).
  - intros u Hu. unfold family. rewrite En1, En2. apply F. exact (round_split b0 WB0 o K pre v post P Ev C u Hu).
Qed.

(** Orders that connect nothing: sets of variables that pairwise share a family. *)
Theorem perfect_roomy b o B : wf_bn b -> Permutation (bnames b) o -> perfect_order b o ->
  (forall K, NoDup K -> (forall u w, In u K -> In w K -> u <> w -> interacts b u w) -> entries b K <= B) -> roomy b o B.
Proof.
  intros WB P PO H K ND (pre & v & post & Ev & C). apply H; [exact ND|]. intros u w Hu Hw N.
  destruct (round_split b WB o K pre v post P Ev C u Hu) as [->|[Iu Au]], (round_split b WB o K pre v post P Ev C w Hw) as [->|[Iw Aw]].
  - congruence.
  - exact Aw.
  - destruct Au as (N1 & n & Hn & A1 & A2). split; [congruence|exists n; auto].
  - exact (PO pre v post Ev u w Iu Iw Au Aw N).
Qed.

(** Checking the bound. *)
Definition near_later (b : bn) (pre : list string) (v : string) : list string :=
  v :: filter (fun u => negb (mem u pre) && interactsb b v u) (bnames b).
Fixpoint roomyb (b : bn) (pre o : list string) (B : nat) : bool :=
  match o with
  | [] => true
  | v :: o' => Nat.leb (entries b (near_later b pre v)) B && roomyb b (pre ++ [v]) o' B
  end.

Lemma roomyb_at b B o : forall pre0, roomyb b pre0 o B = true -> forall pre v post, o = pre ++ v :: post -> entries b (near_later b (pre0 ++ pre) v) <= B.
Proof.
  induction o as [|w o IH]; intros pre0 R pre v post E; [destruct pre; discriminate|]. cbn [roomyb] in R. apply andb_true_iff in R as [R1 R2].
  destruct pre as [|p pre]; cbn [app] in E; injection E as -> E.
  - rewrite app_nil_r. apply Nat.leb_le, R1.
  - specialize (IH (pre0 ++ [p]) R2 pre v post E). rewrite <- app_assoc in IH. exact IH.
Qed.

Lemma roomyb_ok b o B : wf_bn b -> incl o (bnames b) -> roomyb b [] o B = true -> roomy b o B.
Proof.
  intros WB I R K ND (pre & v & post & E & C). apply Nat.le_trans with (entries b (near_later b pre v)); [|exact (roomyb_at b B o [] R pre v post E)].
  apply entries_incl; [|exact ND|].
  - intros u Hu. apply (dom_some b WB). destruct Hu as [<-|Hu]; [apply I; rewrite E; apply in_elt|]. apply filter_In in Hu as [Hu _]. exact Hu.
  - intros u Hu. destruct (string_dec u v) as [->|N]; [left; reflexivity|]. destruct (C u Hu) as [|[M (n & Hn & H1 & H2)]]; [congruence|]. right.
    apply filter_In. split; [exact (family_in b WB n u Hn H2)|]. apply andb_true_iff. split.
    + apply negb_true_iff, not_true_is_false. intros X. apply mem_In in X. exact (M X).
    + apply interactsb_ok. split; [congruence|exists n; auto].
Qed.
