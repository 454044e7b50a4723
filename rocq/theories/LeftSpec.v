(** What set_evidence leaves in the tree, whether it succeeds or raises. *)
From Verif Require Import Base Factor Exact Spec Order TreeSpec JoinTree ErrSpec TreeErrSpec.

(** The likelihoods that a desired posterior [q] stands for, given the prior [p]; [r] is the position of the
    (first) largest number of [q], which gets likelihood one. *)
Definition ratios (p q l : list Qc) : Prop :=
  length l = length q /\
  exists r, r < length q /\ (forall i, i < length q -> (nth i q 0%Qc <= nth r q 0%Qc)%Qc) /\ (forall i, i < r -> (nth i q 0%Qc < nth r q 0%Qc)%Qc) /\
    forall i, i < length q ->
      nth i l 0%Qc = if Nat.eqb i r then 1%Qc else if qeqb (nth i p 0%Qc) 0 then 0%Qc else (nth i q 0%Qc / nth i p 0%Qc * nth r p 0%Qc / nth r q 0%Qc)%Qc.

(** Evidence as likelihoods. *)
Inductive read_as (b : bn) (post : bool) : evidence -> evidence -> Prop :=
| read_nil : read_as b post [] []
| read_hard v x ev ev' : read_as b post ev ev' -> read_as b post ((v, Hard x) :: ev) ((v, Hard x) :: ev')
| read_soft v q ev ev' : post = false -> read_as b post ev ev' -> read_as b post ((v, Soft q) :: ev) ((v, Soft q) :: ev')
| read_post v q l ev ev' : post = true -> ratios (prior b v) q l -> read_as b post ev ev' -> read_as b post ((v, Soft q) :: ev) ((v, Soft l) :: ev').

(** The items before the first faulty one; nothing if desired posteriors are given for unknown variables. *)
Inductive leaves (b : bn) (post : bool) (ev : evidence) : evidence -> Prop :=
| L_nothing v : post = true -> In v (dkeys ev) -> ~ In v (bnames b) -> leaves b post ev []
| L_front l l' ev' : (post = true -> incl (dkeys ev) (bnames b)) -> ev = l ++ l' ->
    (forall w y z, In (w, y) l -> ~ item_fault b post w y z) ->
    match l' with [] => True | (v, e) :: _ => exists z, item_fault b post v e z end ->
    read_as b post l ev' -> leaves b post ev ev'.

(** Everything that can be done with a FactorTree in one piece while the arcs stay the same; calls may raise.
    Beside the tree: the network whose tables it has, and the evidence as likelihoods. *)
Inductive lives {SO : SetOrder} (b0 : bn) : jtree -> bn -> evidence -> Prop :=
| V_create order o t : order_or_default b0 order = Ok o -> suits b0 o -> nonneg_bn b0 ->
    create_jointree b0 order = Ok t -> lives b0 t b0 []
| V_evidence b ev post t b1 ev1 ev' : lives b0 t b1 ev1 -> same_arcs b0 b -> wf_bn b -> nonneg_bn b ->
    NoDup (dkeys ev) -> weights_ok ev -> leaves b post ev ev' -> lives b0 (fst (set_evidence b ev post t)) b ev'
| V_reset b t b1 ev1 : lives b0 t b1 ev1 -> same_arcs b0 b -> wf_bn b -> nonneg_bn b -> lives b0 (fst (reset_factors b t)) b []
| V_messages t b ev : lives b0 t b ev -> lives b0 (fst (calculate_messages t)) b ev
| V_query Q t b ev : lives b0 t b ev -> lives b0 (fst (tmarginals t Q)) b ev.
