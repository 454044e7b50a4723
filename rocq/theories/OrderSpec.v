(** Elimination graphs, without reference to the implementation. *)
From Verif Require Import Base Exact.

(** The skeleton of the network. *)
Definition linked0 (b : bn) (u v : string) : Prop :=
  In (u, v) (bedges b) \/ In (v, u) (bedges b).

(** ... after eliminating [done] (latest first): eliminating a node connects its
    neighbours. *)
Fixpoint linked (b : bn) (done : list string) (u v : string) : Prop :=
  match done with
  | [] => linked0 b u v
  | x :: d => linked b d u v \/ (linked b d u x /\ linked b d x v /\ u <> v)
  end.

Definition degree_is (b : bn) (done : list string) (v : string) (n : nat) : Prop :=
  exists l, NoDup l /\ length l = n /\ forall u, In u l <-> (~ In u done /\ linked b done v u).

(** The graph of a network: its nodes are the network's nodes, edges connect
    different nodes. *)
Record wf_graph (b : bn) : Prop := {
  wg_nodes : Permutation (bnames b) (border b);
  wg_nodup : NoDup (bnames b);
  wg_edges : forall u v, In (u, v) (bedges b) -> In u (bnames b) /\ In v (bnames b) /\ u <> v
}.

(** The interaction graph of the tables: variables of one table are connected. *)
Definition interacts (b : bn) (u v : string) : Prop :=
  u <> v /\ exists n, In n (bnodes b) /\
    In u (dn_name n :: map fst (dn_parents n)) /\ In v (dn_name n :: map fst (dn_parents n)).
