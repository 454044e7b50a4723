(** Networks of several components, and the part of a join tree that belongs to one. *)
From Coq Require Import Relations.
From Verif Require Import Base NDArray Factor Exact Spec SepSpec Order OrderSpec JoinTree.

(** No family has variables inside and outside [S]. *)
Definition apart (b : bn) (S : list string) : Prop :=
  forall n p, In n (bnodes b) -> In p (map fst (dn_parents n)) -> (In (dn_name n) S <-> In p S).

(** The clique has variables of [S] only. *)
Definition inside (S : list string) (t : jtree) (k : string) : bool :=
  match dget k (tnodes t) with Some c => subset (cvars c) S | None => false end.

(** The cliques inside [S], with their neighbours, separators and tables. *)
Definition part (S : list string) (t : jtree) : jtree :=
  mkT (filter (fun p => inside S t (fst p)) (tnodes t)) (filter (fun p => inside S t (fst p)) (tadj t))
      (filter (fun e => inside S t (fst (fst e))) (tedges t)) (tvalid t).

(** The evidence about variables of [S]. *)
Definition ev_part (S : list string) (ev : evidence) : evidence := filter (fun p => mem (fst p) S) ev.

(** The variables of [S] belong together. *)
Definition together (b : bn) (S : list string) : Prop := forall u v, In u (bnames b) -> In v (bnames b) -> In u S -> In v S ->
  clos_refl_trans string (interacts b) u v.

(** Any calls on a FactorTree, whatever they return. *)
Inductive used {SO : SetOrder} (t0 : jtree) : jtree -> Prop :=
| U_new : used t0 t0
| U_evidence b ev soft t : used t0 t -> used t0 (fst (set_evidence b ev soft t))
| U_reset b t : used t0 t -> used t0 (fst (reset_factors b t))
| U_messages t : used t0 t -> used t0 (fst (calculate_messages t))
| U_query Q t : used t0 t -> used t0 (fst (tmarginals t Q)).
