(** Error counts of PriorFeedbackExact in rounded arithmetic, and its histories. *)
From Verif Require Import Base NDArray Factor Exact Order Spec JoinTree TreeSpec Node Network Dynamic DynSpec Rounded RoundedSpec RoundedTree RoundedTreeSpec RoundedDyn.

Section Counts.
Variables b0 two : bn.
Variable trans : list (string * string).

(** Rounding errors in an answer of the slice after [n] others, if its network were exact. *)
Definition slice_errors (n : nat) (Q : list string) (e : evidence) : nat :=
  let b := slice_base b0 two n in tree_errors b (length (bnodes b)) Q e.

(** Rounding errors, up to normalisation, in the network of the slice after [evs]
    (newest first): those of all tables that were handed over. *)
Fixpoint handed_errors (evs : list evidence) : nat :=
  match evs with
  | [] => 0
  | e :: evs' => sumn (map (fun vp => handed_errors evs' + slice_errors (length evs') [snd vp] e) trans)
  end.

(** Rounding errors in an answer of the slice after [evs], given [e]. *)
Definition filter_errors (evs : list evidence) (Q : list string) (e : evidence) : nat :=
  2 * handed_errors evs + slice_errors (length evs) Q e.
End Counts.

(** Sessions, as in DynSpec.v. *)
Inductive rsession {RD : Rounding} {AD : Adding} {SO : SetOrder} (ok : list evidence -> evidence -> Prop) (h : heap) (d : dbnet)
  : mstate -> list evidence -> waiting -> option (list evidence) -> Prop :=
| R_create : rsession ok h d (rdcreate h d) [] Nothing None
| R_evidence s done p sh ev : rsession ok h d s done p sh -> ok done (given ev) ->
    rsession ok h d (fst (rdset_evidence s ev)) done (Pending (given ev)) (Some (given ev :: done))
| R_unroll s done p sh ev : rsession ok h d s done p sh -> p = Nothing \/ ev <> None -> ok done (given ev) ->
    rsession ok h d (fst (rdunroll s ev)) (given ev :: done) Nothing (Some (given ev :: done))
| R_unroll_pending s done e sh : rsession ok h d s done (Pending e) sh ->
    rsession ok h d (fst (rdunroll s None)) (e :: done) Nothing (Some (e :: done))
| R_query s done p sh Q : rsession ok h d s done p sh ->
    rsession ok h d (fst (rdmarginals s Q)) done p sh
| R_failed s done p sh ev x : rsession ok h d s done p sh -> snd (rdset_evidence s ev) = Err x ->
    rsession ok h d (fst (rdset_evidence s ev)) done (spoil p) None
| R_failed_unroll s done p sh ev x : rsession ok h d s done p sh -> p = Nothing \/ ev <> None -> snd (rprior_evidence s ev) = Err x ->
    rsession ok h d (fst (rdunroll s ev)) done (spoil p) None.
