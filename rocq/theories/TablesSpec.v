(** The variables and the sizes of the tables that variable elimination makes. *)
From Verif Require Import Base NDArray Factor Exact Spec SepSpec Tables.

(** A walk from [u] to [v] through families, all variables in between are in [S]. *)
Inductive through (b : bn) (S : list string) : string -> string -> Prop :=
| through_one u v : related b u v -> through b S u v
| through_via u w v : related b u w -> In w S -> through b S w v -> through b S u v.

(** What summing out [v] involves when [pre] was summed out before and [post] comes
    later: [v] and the later variables that walks through [pre] lead to. *)
Definition cluster (b : bn) (pre : list string) (v : string) (post : list string) (u : string) : Prop :=
  u = v \/ In u post /\ through b pre v u.

(** All tables of an event. *)
Definition tables (e : event) : list factor :=
  match e with Given f => [f] | Times f => [f] | Summed _ f g => [f; g] end.

(** What is summed out, from which table. *)
Fixpoint sums (l : list event) : list (string * factor) :=
  match l with
  | [] => []
  | Summed v f _ :: l' => (v, f) :: sums l'
  | _ :: l' => sums l'
  end.

(** The number of entries of a table over [l]. *)
Definition entries (b : bn) (l : list string) : nat := prodn (map (fun v => length (values_of b v)) l).

(** Children come before their parents. *)
Definition upwards (b : bn) (o : list string) : Prop :=
  forall n p l1 l2, In n (bnodes b) -> In p (map fst (dn_parents n)) -> o = l1 ++ p :: l2 -> In (dn_name n) l1.

(** The variables to sum out, in the caller's order. *)
Definition fronts (Q o : list string) : list string := filter (fun v => negb (mem v Q)) o.
