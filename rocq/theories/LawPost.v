(** Masses and posteriors of full states. *)
From Coq Require Import Field QArith.
From Verif Require Import Base NDArray Factor Exact Spec OrderSpec BaseFacts FactorProofs SpecFacts Sampling MCSpec MCFacts MCProof MCTop MCChain
  LawSpec LawCount LawKernel LawOne LawChain.

Lemma dget_hard ev v : dget v (hard ev) = match dget v ev with Some x => Some (Hard x) | None => None end.
Proof. induction ev as [|[u x] ev IH]; cbn [hard map dget fst snd]; [reflexivity|]. destruct (String.eqb v u); [reflexivity|exact IH]. Qed.

Lemma qprod_ones l : Forall (fun x => x = 1%Qc) l -> qprod l = 1%Qc.
Proof. induction 1 as [|x l -> _ IH]; [reflexivity|]. rewrite qprod_cons, IH. reflexivity. Qed.
Lemma qprod_zero l : In 0%Qc l -> qprod l = 0%Qc.
Proof. induction l as [|x l IH]; intros H; [destruct H|]. rewrite qprod_cons. destruct H as [->|H]; [|rewrite (IH H)]; ring. Qed.

Lemma forallb_ext_in {A} (f g : A -> bool) l : (forall x, In x l -> f x = g x) -> forallb f l = forallb g l.
Proof. induction l as [|x l IH]; intros H; [reflexivity|]. cbn [forallb]. rewrite (H x), IH; auto with datatypes. Qed.
Lemma forallb_false_ex {A} (f : A -> bool) l : forallb f l = false -> exists x, In x l /\ f x = false.
Proof.
  induction l as [|x l IH]; cbn [forallb]; [discriminate|]. destruct (f x) eqn:E; intros H; [|now exists x; split; [left|]].
  destruct (IH H) as (y & Y & F). exists y. split; [now right|exact F].
Qed.

Lemma states_single vars y (F : dict string -> Qc) : NoDup (map fst vars) -> (forall v l, In (v, l) vars -> NoDup l) -> In y (states vars) ->
  qsum (map (fun s => if agrees y s then F s else 0%Qc) (states vars)) = F y.
Proof.
  revert y F. induction vars as [|[v l] vars IH]; intros y F ND NV H; cbn [states] in *.
  - destruct H as [<-|[]]. cbn. ring.
  - cbn [map fst] in ND. inversion ND as [|? ? A B]; subst. apply in_flat_map in H as (a & Ha & H). apply in_map_iff in H as (y' & <- & H).
    rewrite qsum_flat_map.
    transitivity (qsum (map (fun x => if String.eqb x a then F ((v, a) :: y') else 0%Qc) l)).
    + apply qsum_map_ext. intros x X. rewrite map_map. destruct (String.eqb_spec x a) as [->|N].
      * etransitivity; [|apply (IH y' (fun s => F ((v, a) :: s)) B (fun v0 l0 I => NV v0 l0 (or_intror I)) H)].
        apply qsum_map_ext. intros s S. unfold agrees. cbn [forallb fst snd]. unfold look at 1. cbn [dget]. rewrite String.eqb_refl, String.eqb_refl. cbn [andb].
        replace (forallb (fun p => String.eqb (look ((v, a) :: s) (fst p)) (snd p)) y') with (forallb (fun p => String.eqb (look s (fst p)) (snd p)) y'); [reflexivity|].
        apply forallb_ext_in. intros [u z] U. cbn [fst snd]. unfold look. cbn [dget]. destruct (String.eqb_spec u v) as [->|N]; [|reflexivity].
        exfalso. apply A. rewrite <- (states_keys vars y' H). exact (in_map fst _ _ U).
      * apply qsum_zero. intros s S. unfold agrees. cbn [forallb fst snd]. unfold look at 1. cbn [dget]. rewrite String.eqb_refl.
        destruct (String.eqb_spec x a) as [E|_]; [contradiction|reflexivity].
    + assert (NL : NoDup l) by (eapply NV; now left). clear - NL Ha. induction l as [|x l IH]; [destruct Ha|]. inversion NL as [|? ? C D]; subst.
      cbn [map qsum]. destruct Ha as [->|Ha].
      * rewrite String.eqb_refl, qsum_zero; [ring|]. intros z Z. destruct (String.eqb_spec z a) as [->|_]; [contradiction|reflexivity].
      * rewrite IH by assumption. destruct (String.eqb_spec x a) as [->|_]; [contradiction|ring].
Qed.

Section Net.
Variable b : bn.
Hypothesis SN : sampled_net b.
Variable ev : dict string.
Hypothesis ND : NoDup (dkeys ev).
Hypothesis IN : incl (dkeys ev) (bnames b).
Let WB := sn_bn b SN.

Lemma evidence_agrees s : qprod (map (fun n => evidence_weight (hard ev) n s) (bnodes b)) = ind (agrees ev s).
Proof.
  destruct (agrees ev s) eqn:A; cbn [ind].
  - apply qprod_ones, Forall_forall. intros w W. apply in_map_iff in W as (n & <- & Hn). unfold evidence_weight. rewrite dget_hard.
    destruct (dget (dn_name n) ev) as [x|] eqn:E; [|reflexivity]. apply dget_In in E. unfold agrees in A. rewrite forallb_forall in A.
    apply A in E. cbn [fst snd] in E. now rewrite E.
  - apply qprod_zero. unfold agrees in A. apply forallb_false_ex in A as ([v x] & I & E). cbn [fst snd] in E.
    assert (Hv : In v (bnames b)) by (apply IN; exact (in_map fst _ _ I)). apply in_map_iff in Hv as (n & EN & Hn). apply in_map_iff.
    exists n. split; [|exact Hn]. unfold evidence_weight. now rewrite dget_hard, EN, (In_dget _ _ _ ND I), E.
Qed.

Lemma mass_worlds q : mass b (hard ev) q = qsum (map (fun s => joint b s * ind (agrees q s))%Qc (worlds b ev)).
Proof.
  unfold mass, worlds. rewrite !qsum_filter. apply qsum_map_ext. intros s S. unfold weight. rewrite evidence_agrees.
  destruct (agrees q s), (agrees ev s); cbn [ind]; ring.
Qed.

Lemma mass_full x : In x (worlds b ev) -> mass b (hard ev) x = joint b x.
Proof.
  intros X. rewrite mass_worlds. unfold worlds in *. apply filter_In in X as [X A]. rewrite qsum_filter.
  transitivity (qsum (map (fun s => if agrees x s then (if agrees ev s then joint b s else 0%Qc) else 0%Qc) (states (bvars b)))).
  - apply qsum_map_ext. intros s S. destruct (agrees ev s), (agrees x s); cbn [ind]; ring.
  - rewrite states_single; [now rewrite A| | |exact X].
    + rewrite (bvars_names b). apply (wb_names b WB).
    + intros v l I. unfold bvars in I. apply in_map_iff in I as (n & E & Hn). inversion E; subst. apply (wb_nodes b WB n Hn).
Qed.

Lemma chain_law N t full burnIn n j q m : 0 < N -> gibbs_fine b ev N /\ mh_fine b ev N /\ div_fine b N /\ (free_vars b ev <> [] -> Nat.divide (length (free_vars b ev)) N) ->
  full = true \/ free_vars b ev <> [] -> j < n -> (burnIn + S j) * per_step t full (free_vars b ev) <= m ->
  qsum (map (fun x => posterior b (hard ev) x * chance N m (fun g => shows q j (generate_chain t burnIn full g b n (x, 0%nat) (Some ev))))%Qc (worlds b ev)) =
  posterior b (hard ev) q.
Proof.
  intros N0 (GF & MF & DF & VF) F J L. unfold posterior. destruct (qeqb (mass b (hard ev) []) 0%Qc) eqn:Z; [apply qsum_zero; intros; ring|].
  transitivity (/ mass b (hard ev) [] * qsum (map (fun x => joint b x * chance N m (fun g => shows q j (generate_chain t burnIn full g b n (x, 0%nat) (Some ev))))%Qc (worlds b ev)))%Qc.
  - rewrite <- qsum_mult_l. apply qsum_map_ext. intros x X. rewrite (mass_full x X). unfold Qcdiv. ring.
  - rewrite chain_keeps by assumption. rewrite <- mass_worlds. unfold Qcdiv. ring.
Qed.
End Net.
