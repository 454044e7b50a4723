(** Specification for the properties of decisions (C90): what get_optimal_decisions compares, and
    decision networks that differ in the unit and the zero of utility only. *)
From Verif Require Import Base NDArray Factor Exact Spec Node Network NetSpec Decision DecSpec.

(** The probability of a node's value in state [s] while the decisions of [order] are
    optimised: fixed decisions are taken, the others of [order] evenly mixed. *)
Definition stance (order : list string) (fixed : dict string) (n : dnode) (s : dict string) : Qc :=
  if mem (dn_name n) order then
    match dget (dn_name n) fixed with
    | Some d => if String.eqb (look s (dn_name n)) d then 1%Qc else 0%Qc
    | None => (/ qnat (length (dn_values n)))%Qc
    end
  else entry n s.

(** Taking decision [d] at [v]: the sum over the states with that decision, and the mean of the utilities. *)
Definition stance_sum (w : dworld) (order : list string) (fixed : dict string) (v d : string) (U : dict string -> Qc) : Qc :=
  qsum (map (fun s => qprod (map (fun n => stance order fixed n s) (open_nodes w [(v, d)])) * U s)%Qc
            (filter (agrees [(v, d)]) (states (bvars (dbn w))))).
Definition stance_value (w : dworld) (order : list string) (fixed : dict string) (v d : string) : Qc :=
  (stance_sum w order fixed v d (utilities w) / stance_sum w order fixed v d (fun _ => 1%Qc))%Qc.

(** The same chance and decision nodes; utilities [u] became [a * u + c]. *)
Record revalued (a c : Qc) (w w' : dworld) : Prop := {
  rv_nodes : bnodes (dbn w') = bnodes (dbn w);
  rv_rules : drules w' = drules w;
  rv_utilities : forall s, In s (states (bvars (dbn w))) -> utilities w' s = (a * utilities w s + c)%Qc
}.

(** The decisions that may be optimised: decision nodes without parents, with a known value if one is fixed. *)
Definition decidable (w : dworld) (fixed : dict string) (v : string) : Prop :=
  exists n, In n (drules w) /\ dn_name n = v /\ dn_parents n = [] /\ forall d, dget v fixed = Some d -> In d (dn_values n).
