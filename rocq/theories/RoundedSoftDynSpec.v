(** Error counts of SoftEvidenceExact in rounded arithmetic, and its histories. *)
From Verif Require Import Base NDArray Factor Exact Order Spec JoinTree TreeSpec Node Network Dynamic DynSpec Rounded RoundedSpec RoundedTree RoundedTreeSpec
  RoundedSoft RoundedSoftSpec RoundedDyn RoundedSoftDyn.

(** Tables whose columns sum to one up to rounding. *)
Definition nearly_stochastic {RD : Rounding} (k : nat) (b : bn) : Prop :=
  forall n s, In n (bnodes b) -> close k 1%Qc (qsum (map (fun x => entry n ((dn_name n, x) :: s)) (dn_values n))).

(** The 2-TBN's own distributions of the variables taken over are, up to a factor and
    rounding, their tables. *)
Definition own_priors {RD : Rounding} (k : nat) (two : bn) (trans : list (string * string)) : Prop :=
  forall n, In n (bnodes two) -> In (dn_name n) (map fst trans) ->
  exists c, (0 < c)%Qc /\ forall x, In x (dn_values n) -> close k (c * entry n [(dn_name n, x)])%Qc (posterior two [] [(dn_name n, x)]).

Section Counts.
Variables b0 two : bn.
Variable trans : list (string * string).
Variable j : nat.

(** What is demanded of the slice after [evs]; the numbers do not matter for the counts. *)
Definition demanded (evs : list evidence) (e : evidence) : evidence :=
  match evs with [] => e | _ => e ++ map (fun vp => (fst vp, Soft [])) trans end.

(** Rounding errors in an answer of the slice after [evs], if the demands were exact. *)
Definition demand_errors (evs : list evidence) (Q : list string) (e : evidence) : nat :=
  let b := slice_base b0 two (length evs) in desired_errors b (length (bnodes b)) Q (demanded evs e).

(** Rounding errors, up to normalisation, in what the demands on the slice after [evs]
    (newest first) amount to: those of all tables that were handed over, and of the own
    distributions that they replace. *)
Fixpoint given_errors (evs : list evidence) : nat :=
  match evs with
  | [] => 0
  | e :: evs' => sumn (map (fun vp => given_errors evs' + demand_errors evs' [snd vp] e + j) trans)
  end.

(** Rounding errors in an answer of the slice after [evs], given [e]. *)
Definition soft_errors (evs : list evidence) (Q : list string) (e : evidence) : nat :=
  2 * given_errors evs + demand_errors evs Q e.
End Counts.

(** Sessions, as in DynSpec.v. *)
Inductive ssession {RD : Rounding} {AD : Adding} {SO : SetOrder} (ok : list evidence -> evidence -> Prop) (h : heap) (d : dbnet)
  : mstate -> list evidence -> waiting -> option (list evidence) -> Prop :=
| SS_create : ssession ok h d (rscreate h d) [] Nothing None
| SS_evidence s done p sh ev : ssession ok h d s done p sh -> ok done (given ev) ->
    ssession ok h d (fst (rsset_evidence s ev)) done (Pending (given ev)) (Some (given ev :: done))
| SS_unroll s done p sh ev : ssession ok h d s done p sh -> p = Nothing \/ ev <> None -> ok done (given ev) ->
    ssession ok h d (fst (rsunroll s ev)) (given ev :: done) Nothing (Some (given ev :: done))
| SS_unroll_pending s done e sh : ssession ok h d s done (Pending e) sh ->
    ssession ok h d (fst (rsunroll s None)) (e :: done) Nothing (Some (e :: done))
| SS_query s done p sh Q : ssession ok h d s done p sh ->
    ssession ok h d (fst (rsmarginals s Q)) done p sh
| SS_failed s done p sh ev x : ssession ok h d s done p sh -> snd (rsset_evidence s ev) = Err x ->
    ssession ok h d (fst (rsset_evidence s ev)) done (spoil p) None
| SS_failed_unroll s done p sh ev x : ssession ok h d s done p sh -> p = Nothing \/ ev <> None -> snd (rsoft_evidence s ev) = Err x ->
    ssession ok h d (fst (rsunroll s ev)) done (spoil p) None.
