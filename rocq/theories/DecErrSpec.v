(** Which calls of the decision methods raise which exception. *)
From Verif Require Import Base NDArray Factor Exact Spec Node Network NetSpec Decision DecSpec.

(** What is wrong with asking for the decision node [v], with the value [d] for it
    ([Some d]) or with a rule over its values ([None]). *)
Inductive fault (w : dworld) : string -> option string -> exc -> Prop :=
| fault_name v x : ~ In v (dkeys (dlook w)) -> fault w v x KeyError
| fault_kind v x i n : dholds w v i n -> nkind n <> KDecision -> fault w v x AttributeError
| fault_value v d i n : dholds w v i n -> nkind n = KDecision -> ~ In d (nvalues n) -> fault w v (Some d) ValueError.

(** Nothing is wrong with any item; the first item that something is wrong with. *)
Definition faultless (w : dworld) (l : list (string * option string)) : Prop :=
  forall v x e, In (v, x) l -> ~ fault w v x e.
Definition first_fault (w : dworld) (l : list (string * option string)) (e : exc) : Prop :=
  exists l1 v x l2, l = l1 ++ (v, x) :: l2 /\ faultless w l1 /\ fault w v x e.

(** The variables the table of a node speaks of. *)
Definition mentions (n : node) : list string := (if is_utility n then [] else [nname n]) ++ nporder n.

(** A set of variables that no table, of utilities or probabilities, connects to
    the other variables. *)
Definition apart (w : dworld) (K : list string) : Prop :=
  incl K (bnames (dbn w)) /\
  forall v i n u, dholds w v i n -> In u K -> In u (mentions n) -> incl (mentions n) K.

(** The product of the tables of these variables, summed over the joint states. *)
Definition weight (w : dworld) (K : list string) : Qc :=
  qsum (map (fun s => qprod (map (fun n => entry n s) (filter (fun n => mem (dn_name n) K) (bnodes (dbn w)))))
            (states (bvars (dbn w)))).

(** Some part of the network unconnected to [v] is impossible. *)
Definition impossible_beside (w : dworld) (v : string) : Prop :=
  exists K, apart w K /\ ~ In v K /\ weight w K = 0%Qc.

(** [v] has several values to choose from, and the choice may depend on a variable
    with several values. *)
Definition informed (w : dworld) (v : string) : Prop :=
  exists i n q o m, dholds w v i n /\ 2 <= length (nvalues n) /\ In q (nporder n) /\ dholds w q o m /\ 2 <= length (nvalues m).

(** Why the best decision for [v] is not found. *)
Inductive undecided (w : dworld) (v : string) : exc -> Prop :=
| undecided_impossible : impossible_beside w v -> undecided w v FloatingPointError
| undecided_informed : ~ impossible_beside w v -> informed w v -> undecided w v ValueError.

(** What a call asks for: the decisions to set, the decisions to optimise. *)
Definition given_items (ds : dict string) : list (string * option string) := map (fun p => (fst p, Some (snd p))) ds.
Definition wanted_items (order : list string) (fixed : dict string) : list (string * option string) :=
  map (fun v => (v, dget v fixed)) order.
