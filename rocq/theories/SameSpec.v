(** Networks that say the same, however they were built. *)
From Verif Require Import Base NDArray Factor Exact Spec Node Network NetSpec NetView.

(** A state in which every variable has one of its values. *)
Definition whole (b : bn) (s : dict string) : Prop :=
  forall n, In n (bnodes b) -> exists x, dget (dn_name n) s = Some x /\ In x (dn_values n).

(** The same variables with the same values and the same probabilities.  Nodes, values and
    parents may be listed in different orders, so that the tables differ as arrays. *)
Record same_model (b b' : bn) : Prop := {
  sm_names : Permutation (bnames b) (bnames b');
  sm_values : forall n n', In n (bnodes b) -> In n' (bnodes b') -> dn_name n = dn_name n' -> Permutation (dn_values n) (dn_values n');
  sm_entry : forall n n' s, In n (bnodes b) -> In n' (bnodes b') -> dn_name n = dn_name n' -> whole b s -> entry n s = entry n' s
}.

(** Evidence that gives the same weight to every value. *)
Definition same_evidence (b b' : bn) (ev ev' : evidence) : Prop :=
  forall n n' s, In n (bnodes b) -> In n' (bnodes b') -> dn_name n = dn_name n' -> whole b s ->
    evidence_weight ev n s = evidence_weight ev' n' s.

(** Two networks that cannot be told apart by asking every node for its probabilities, given
    values for all variables. *)
Record same_answers (w w' : world) : Prop := {
  sa_names : Permutation (dkeys (lookup (wnet w))) (dkeys (lookup (wnet w')));
  sa_values : forall v i n i' n', holds w v i n -> holds w' v i' n' -> Permutation (nvalues n) (nvalues n');
  sa_probability : forall v i n i' n' s, holds w v i n -> holds w' v i' n' -> whole (view w) s ->
     get_probability (whp w) n (look s v) (map (fun p => (fst p, One (snd p))) s) =
     get_probability (whp w') n' (look s v) (map (fun p => (fst p, One (snd p))) s)
}.
