(** Paths and cycles. *)
From Verif Require Import Base.

(** A path with at least one edge. *)
Inductive leads (es : list (string * string)) : string -> string -> Prop :=
| leads_edge u v : In (u, v) es -> leads es u v
| leads_step u v w : In (u, v) es -> leads es v w -> leads es u w.

Definition acyclic (es : list (string * string)) : Prop := forall v, ~ leads es v v.

(** On a cycle or behind one. *)
Definition behind_cycle (es : list (string * string)) (v : string) : Prop :=
  exists c, leads es c c /\ (c = v \/ leads es c v).

(** Sources before targets. *)
Definition sorted (es : list (string * string)) (l : list string) : Prop :=
  forall pre v post u, l = pre ++ v :: post -> In (u, v) es -> In u pre.

(** A graph: nodes and edges listed once, edges between nodes. *)
Definition graph (ns : list string) (es : list (string * string)) : Prop :=
  NoDup ns /\ NoDup es /\ forall u v, In (u, v) es -> In u ns /\ In v ns.
