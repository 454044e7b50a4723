(** What an inference object keeps between calls, and the main lemmas of C86. *)
From Verif Require Import Base BaseFacts NDArray NDArrayFacts SumCalc Factor FactorFacts Exact Spec SpecFacts VEProof VEProof2 Order OrderSpec OrderProof
  JoinTree HuginPure Hugin JTProof JTProof2 JTBuild JTBuild2 JTBuild3 TreeSpec JTDefault JTPolytree JTTop JTAgain JTAgain2 JTAgain3 SepSpec TablesSpec TablesTop
  RoundedTree RoundedTreeProof RoundedTreeTop RoundedSoft RoundedSoftTop TreeTables TreeTablesSpec TreeTablesProof TreeTablesTop Node Network NetSpec NetFacts NetView Dynamic DynPure DynHeap
  RoundedDyn RoundedSoftDyn DynTables DynTablesSpec DynTablesProof.

Section Kept.
Context {SO : SetOrder}.
Variables (m : method) (B : nat) (N : bool -> bn) (D : dbnet) (L : nat).
Hypothesis HO : forall first, housed (N first) B.

Definition kept (n : nat) (s : mstate) : Prop :=
  track N D s /\ length (mheap s) = L /\ length (mtrans s) <= n /\ forall v a, dget v (mtrans s) = Some a -> length (data a) <= B.

Lemma kept_le n n' s : n <= n' -> kept n s -> kept n' s.
Proof. intros H (T & A & C & E). split; [exact T|]. split; [exact A|]. split; [lia|exact E]. Qed.

Lemma kept_same n s s' : mheap s' = mheap s -> mtrans s' = mtrans s -> track N D s' -> kept n s -> kept n s'.
Proof. intros E1 E2 T (_ & A & C & E). unfold kept. rewrite E1, E2. auto. Qed.

Lemma new_kept n s first : kept n s -> kept n (fst (new_tree s first)).
Proof.
  intros K. apply (kept_same n s); [| |apply (new_eq ValueError B N D HO), K|exact K]; unfold new_tree; destruct (create_jointree _ _); reflexivity.
Qed.

Lemma on_same {A} s (f : bn -> jtree -> jtree * res A) : mheap (fst (on_tree s f)) = mheap s /\ mtrans (fst (on_tree s f)) = mtrans s.
Proof. unfold on_tree. destruct (mtree s) as [[first t]|]; split; reflexivity. Qed.

Lemma reset_kept n s : kept n s -> kept n (fst (on_tree s reset_factors)).
Proof. intros K. destruct (on_same s reset_factors) as [E1 E2]. apply (kept_same n s); [exact E1|exact E2|apply (reset_on ValueError B N D HO), K|exact K]. Qed.

Lemma evidence_kept n s ev soft : kept n s -> kept n (fst (on_tree s (fun b t => set_evidence b ev soft t))).
Proof.
  intros K. destruct (on_same s (fun b t => set_evidence b ev soft t)) as [E1 E2].
  apply (kept_same n s); [exact E1|exact E2|apply (evidence_on_eq ValueError B N D HO), K|exact K].
Qed.

Lemma query_kept n s Q : kept n s -> kept n (fst (dmarginals s Q)).
Proof.
  intros K. destruct (on_same s (fun _ t => tmarginals t Q)) as [E1 E2].
  apply (kept_same n s); [exact E1|exact E2|apply (query_on ValueError B N D HO), K|exact K].
Qed.

Lemma seq_kept n n' c k : kept n (fst c) -> n <= n' -> (forall s, kept n s -> kept n' (fst (k s))) -> kept n' (fst (seq_calls c k)).
Proof. intros K LE H. destruct c as [s [u|e]]; cbn [seq_calls fst] in *; [apply H, K|apply (kept_le n n'); assumption]. Qed.

Lemma set_kept n s ev kw : kept n s -> kept n (fst (set_evidence_ m s ev kw)).
Proof.
  intros K. unfold set_evidence_. destruct m.
  - apply (seq_kept n n); [|lia|intros s' K'; apply evidence_kept, K'].
    destruct (mt s) as [|[|k]]; [apply new_kept, K|apply new_kept, K|apply reset_kept, K].
  - destruct kw; [exact K|]. apply (seq_kept n n); [|lia|intros s' K'; apply evidence_kept, K'].
    destruct (mt s) as [|[|k]]; [apply new_kept, K|apply new_kept, K|exact K].
Qed.

Lemma table_kept n s p : kept n s -> kept n (fst (slice_table s p)) /\ forall a, snd (slice_table s p) = Ok a -> length (data a) <= B.
Proof.
  intros K. split.
  - unfold slice_table. assert (H := query_kept n s [p] K). destruct (dmarginals s [p]) as [s' [f|e]]; exact H.
  - intros a E. apply (table_eq ValueError B N D HO s p (proj1 K)), E.
Qed.

Lemma feed_prior_kept n s v p : kept n s -> kept n (fst (feed_prior s v p)).
Proof.
  intros K. assert (T := proj2 (feed_prior_eq ValueError B N D HO s v p (proj1 K))). destruct (table_kept n s p K) as [K1 _].
  unfold feed_prior in *. destruct (dget v (lookup (dtwo (mdbn s)))) as [i|]; [|exact K].
  destruct (slice_table s p) as [s' [a|e]]; cbn [fst] in *; [|exact K1]. destruct (nth_error (mheap s') i) as [q|]; [|exact K1].
  destruct (set_cpd q false a) as [q'|e]; [|exact K1]. cbn [fst] in *. destruct K1 as (_ & A & C & E). split; [exact T|]. cbn [mheap mtrans].
  rewrite list_set_length. auto.
Qed.

Lemma feed_soft_kept n s v p : kept n s -> kept (S n) (fst (feed_soft s v p)).
Proof.
  intros K. assert (T := proj2 (feed_soft_eq ValueError B N D HO s v p (proj1 K))). destruct (table_kept n s p K) as [K1 L1].
  unfold feed_soft in *. destruct (slice_table s p) as [s' [a|e]]; cbn [fst snd] in *; [|apply (kept_le n); [lia|exact K1]].
  destruct K1 as (_ & A & C & E). split; [exact T|]. cbn [with_trans mheap mtrans]. split; [exact A|]. split; [pose proof (dset_length v a (mtrans s')); lia|].
  intros u z Eu. rewrite dget_dset in Eu. destruct (String.eqb u v); [injection Eu as <-; apply L1; reflexivity|apply (E u), Eu].
Qed.

Lemma feeds_prior l : forall n s, kept n s -> kept n (fst (feed_all feed_prior l s)).
Proof.
  induction l as [|[v p] l IH]; intros n s K; cbn [feed_all]; [exact K|]. apply (seq_kept n n); [apply feed_prior_kept, K|lia|apply IH].
Qed.

Lemma feeds_soft l : forall n s, kept n s -> kept (n + length l) (fst (feed_all feed_soft l s)).
Proof.
  induction l as [|[v p] l IH]; intros n s K; cbn [feed_all length]; [rewrite Nat.add_0_r; exact K|].
  apply (seq_kept (S n)); [apply feed_soft_kept, K|lia|]. intros s' K'. replace (n + S (length l)) with (S n + length l) by lia. apply IH, K'.
Qed.

Lemma plain_track s s' : mheap s' = mheap s -> mdbn s' = mdbn s -> mtree s' = mtree s -> track N D s -> track N D s'.
Proof. exact (track_same N D s s'). Qed.

Lemma unroll_kept n s : kept n s -> length (dtrans D) <= n -> kept n (fst (unroll_ m s)).
Proof.
  intros K H. assert (ED : mdbn s = D) by apply (proj1 K). unfold unroll_. destruct m.
  - apply (seq_kept n n); [apply feeds_prior, K|lia|]. intros s' K'. apply (kept_same n s'); [reflexivity|reflexivity| |exact K'].
    apply (plain_track s'); [reflexivity|reflexivity|reflexivity|apply K'].
  - apply (seq_kept n n); [|lia|].
    + apply (kept_le (length (dtrans D))); [exact H|]. rewrite <- ED. apply (feeds_soft _ 0). destruct K as (T & A & C & E). split.
      * apply (plain_track s); [reflexivity|reflexivity|reflexivity|exact T].
      * split; [exact A|]. split; [cbn; lia|discriminate].
    + intros s' K'. apply (kept_same n s'); [reflexivity|reflexivity| |exact K']. apply (plain_track s'); [reflexivity|reflexivity|reflexivity|apply K'].
Qed.

Lemma flag_kept n z s : kept n s -> kept n (fst (with_flag s z, @Ok unit tt)).
Proof. intros K. apply (kept_same n s); [reflexivity|reflexivity| |exact K]. apply (plain_track s); [reflexivity|reflexivity|reflexivity|apply K]. Qed.

Lemma exec_kept n s c : length (dtrans D) <= n -> kept n s -> kept n (fst (mexec m s c)).
Proof.
  intros H K. destruct c as [ev kw|ev kw|Q]; cbn [mexec].
  - unfold dset_evidence. apply (seq_kept n n); [apply set_kept, K|lia|]. intros s' K'. apply flag_kept, K'.
  - unfold dunroll. apply (seq_kept n n); [|lia|].
    + destruct (negb (mflag s) || _); [apply set_kept, K|exact K].
    + intros s1 K1. apply (seq_kept n n); [apply unroll_kept; assumption|lia|]. intros s' K'. apply flag_kept, K'.
  - cbn [fst]. apply query_kept, K.
Qed.

Lemma run_kept n cs : length (dtrans D) <= n -> forall s, kept n s -> kept n (mrun m s cs).
Proof. intros H. induction cs as [|c cs IH]; intros s K; cbn [mrun]; [exact K|]. apply IH, exec_kept; assumption. Qed.
End Kept.

Lemma housed_lengths b b' : frame b = frame b' -> wf_bn b -> wf_bn b' ->
  map (fun n => length (data (dn_cpd n))) (bnodes b') = map (fun n => length (data (dn_cpd n))) (bnodes b).
Proof.
  intros F W W'. assert (H : forall c, wf_bn c -> map (fun n => length (data (dn_cpd n))) (bnodes c) =
    map (fun q : string * list string * dict (list string) * list string => prodn (map (fun p => length (snd p)) ((fst (fst (fst q)), snd (fst (fst q))) :: snd (fst q))))
      (map (fun n => (dn_name n, dn_values n, dn_parents n, dn_pdict n)) (bnodes c))).
  { intros c Wc. rewrite map_map. apply map_ext_in. intros n Hn. destruct (wb_nodes c Wc n Hn) as [_ _ _ S A _]. cbn [fst snd]. rewrite A, S. reflexivity. }
  rewrite (H b W), (H b' W'). unfold frame in F. injection F as F _ _. rewrite F. reflexivity.
Qed.

Section Top.
Context {SO : SetOrder}.
Variables (m : method) (h : heap) (d : dbnet) (B : nat).
Hypothesis HO : forall first, housed (part h d first) B.

Theorem run_top x cs : capped_mrun m x B (mcreate m h d) cs = mrun m (mcreate m h d) cs.
Proof. apply (mrun_eq m x B (part h d) (mdbn (mcreate m h d)) HO cs _ (track_start m h d B HO)). Qed.

Theorem call_top x cs c : capped_mexec m x B (mrun m (mcreate m h d) cs) c = mexec m (mrun m (mcreate m h d) cs) c.
Proof. apply (mexec_eq m x B (part h d) (mdbn (mcreate m h d)) HO). apply (mrun_eq m x B (part h d) (mdbn (mcreate m h d)) HO cs _ (track_start m h d B HO)). Qed.

Theorem ask_top x cs Q : capped_dmarginals x B (mrun m (mcreate m h d) cs) Q = dmarginals (mrun m (mcreate m h d) cs) Q.
Proof. apply (query_on x B (part h d) (mdbn (mcreate m h d)) HO). apply (mrun_eq m x B (part h d) (mdbn (mcreate m h d)) HO cs _ (track_start m h d B HO)). Qed.

Theorem kept_top cs : let s := mrun m (mcreate m h d) cs in
  length (mheap s) = length (mheap (mcreate m h d)) /\
  (forall first, map (fun n => length (data (dn_cpd n))) (bnodes (slice_net s first)) = map (fun n => length (data (dn_cpd n))) (bnodes (part h d first))) /\
  length (mtrans s) <= length (dtrans d) /\ (forall v a, dget v (mtrans s) = Some a -> length (data a) <= B) /\
  (forall first t, mtree s = Some (first, t) -> length (tnodes t) <= length (bnodes (part h d first)) /\
     (forall k c, dget k (tnodes t) = Some c -> length (data (pot (cfac c))) <= B) /\
     (forall u v e, eget u v (tedges t) = Some e -> dget v (tnodes t) <> None -> length (data (pot (sfac e))) <= B)).
Proof.
  intros s.
  assert (K : kept B (part h d) (mdbn (mcreate m h d)) (length (mheap (mcreate m h d))) (length (dtrans d)) s).
  { apply run_kept; [exact HO|destruct m; cbn; lia|]. split; [exact (track_start m h d B HO)|]. split; [reflexivity|].
    split; [destruct m; cbn; lia|]. intros v a E. destruct m; discriminate. }
  destruct K as (T & A & C & E). split; [exact A|]. split.
  - intros first. destruct (tk_net _ _ _ T first) as [W F]. apply housed_lengths; [exact F|apply HO|exact W].
  - split; [exact C|]. split; [exact E|]. intros first t Et.
    destruct (tk_tree _ _ _ T first t Et) as (bc & o & b & W & F & Eo & S & F').
    destruct (ho_frame B (part h d) HO first bc F W) as [_ G M DC _].
    destruct (stored_top bc W G M DC o b t S) as (ST & _).
    destruct (serves_inv bc W G M DC o b t S) as (_ & _ & _ & FI). specialize (FI B (room_of B (part h d) HO first bc o b F Eo F')).
    assert (NF : forall k c, dget k (tnodes t) = Some c -> small B b (cvars c) /\ sc b (cvars c) (cfac c)) by apply FI.
    split; [|split].
    + destruct (min_degree_greedy bc G) as (r & Er & P & _). cbn [order_or_default] in Eo. rewrite Er in Eo. injection Eo as <-. apply Permutation_length in P.
      assert (Q : length (bnodes bc) = length (bnodes (part h d first))).
      { assert (Q := f_equal (@length _) (same_arcs_names _ _ (frame_arcs _ _ F))). unfold bnames in Q. rewrite !map_length in Q. symmetry. exact Q. }
      unfold bnames in P. rewrite map_length in P. lia.
    + intros k c Ec. destruct (NF k c Ec) as [Sm Scf]. exact (sc_size B b _ _ Sm Scf).
    + intros u v e Ee Ev. destruct (dget v (tnodes t)) as [c|] eqn:Ec; [|destruct (Ev eq_refl)]. destruct (NF v c Ec) as [Sm _].
      apply (sc_size B b (cvars c)); [exact Sm|]. apply (sc_incl b (svars e)); [exact (fi_edge _ _ _ FI u v e Ee)|exact (fi_fit _ _ _ FI u v e c Ee Ec)].
Qed.
End Top.

Lemma polytree_housed {SO : SetOrder} b B : wf_bn b -> wf_graph b -> edges_match b -> decodable (bnames b) -> polytree b ->
  (forall n, In n (bnodes b) -> length (data (dn_cpd n)) <= B) -> housed b B.
Proof.
  intros W G M C P H. split; [exact W|exact G|exact M|exact C|]. intros o E. apply (polytree_roomy b b o B); auto. reflexivity.
Qed.
