(** Which variables can matter for a query: ancestors, and trails around
    observed variables. *)
From Verif Require Import Base NDArray Factor Exact Spec.

(** A node and its parents. *)
Definition family (n : dnode) : list string := dn_name n :: map fst (dn_parents n).

(** A set of variables that contains the parents of its members. *)
Definition ancestral (b : bn) (S : list string) : Prop :=
  forall n p, In n (bnodes b) -> In (dn_name n) S -> In p (map fst (dn_parents n)) -> In p S.

(** The network without the variables outside [S]. *)
Definition restrict (b : bn) (S : list string) : bn :=
  mkBN (filter (fun n => mem (dn_name n) S) (bnodes b)) (filter (fun v => mem v S) (border b))
       (filter (fun e => mem (fst e) S && mem (snd e) S) (bedges b)).

(** The columns of the tables of all variables outside [S] sum to one. *)
Definition stochastic_outside (b : bn) (S : list string) : Prop :=
  forall n s, In n (bnodes b) -> ~ In (dn_name n) S ->
    qsum (map (fun x => entry n ((dn_name n, x) :: s)) (dn_values n)) = 1%Qc.

(** All evidence is on variables in [S] (or on none of the network's). *)
Definition within_set (b : bn) (ev : evidence) (S : list string) : Prop :=
  forall v, In v (dkeys ev) -> In v (bnames b) -> In v S.

(** Observed with the same value by both. *)
Definition pinned (ev ev' : evidence) (v : string) : Prop :=
  exists x, dget v ev = Some (Hard x) /\ dget v ev' = Some (Hard x).

(** Two variables of one family of the network. *)
Definition related (b : bn) (u v : string) : Prop :=
  exists n, In n (bnodes b) /\ In u (family n) /\ In v (family n).

(** A walk through families that avoids pinned variables. *)
Inductive trail (b : bn) (ev ev' : evidence) : string -> string -> Prop :=
| trail_here v : ~ pinned ev ev' v -> trail b ev ev' v v
| trail_step u v w : trail b ev ev' u v -> related b v w -> ~ pinned ev ev' w -> trail b ev ev' u w.

(** The two evidences say the same about every variable that a trail from the
    query reaches. *)
Definition same_near (b : bn) (ev ev' : evidence) (Q : list string) : Prop :=
  forall u v, In u Q -> trail b ev ev' u v -> dget v ev = dget v ev'.

(** ** Arcs *)

Definition parent (b : bn) (p v : string) : Prop :=
  exists n, In n (bnodes b) /\ dn_name n = v /\ In p (map fst (dn_parents n)).

(** [u] is [v] or an ancestor of it. *)
Inductive above (b : bn) : string -> string -> Prop :=
| above_here v : above b v v
| above_up u w v : parent b u w -> above b w v -> above b u v.

(** The variable or one of its descendants has evidence of some kind. *)
Definition opened (b : bn) (ev ev' : evidence) (v : string) : Prop :=
  exists d, above b v d /\ In d (dkeys ev ++ dkeys ev').

(** Shachter's ball: [ball true v] arrived at the query variable v or came from a
    child, [ball false v] came from a parent.  Pinned variables stop it, except that
    it bounces back to the parents of variables that are observed or have an observed
    descendant. *)
Inductive ball (b : bn) (ev ev' : evidence) (Q : list string) : bool -> string -> Prop :=
| ball_start q : In q Q -> ball b ev ev' Q true q
| ball_up v p : ball b ev ev' Q true v -> ~ pinned ev ev' v -> parent b p v -> ball b ev ev' Q true p
| ball_down d v c : ball b ev ev' Q d v -> ~ pinned ev ev' v -> parent b v c -> ball b ev ev' Q false c
| ball_bounce v p : ball b ev ev' Q false v -> opened b ev ev' v -> parent b p v -> ball b ev ev' Q true p.

(** The evidences differ on no variable that the ball reaches. *)
Definition ball_same (b : bn) (ev ev' : evidence) (Q : list string) : Prop :=
  forall d v, ball b ev ev' Q d v -> dget v ev = dget v ev'.
