(** Ways to write the same evidence. *)
From Verif Require Import Base NDArray Factor Exact Spec.

(** Weight one for the value [x], zero for all others. *)
Definition indicator (x : string) (vals : list string) : list Qc :=
  map (fun y => if String.eqb y x then 1%Qc else 0%Qc) vals.

(** [ev'] is [ev] with some named values written as such weights. *)
Inductive respelled (b : bn) : evidence -> evidence -> Prop :=
| RE_nil : respelled b [] []
| RE_same v e ev ev' : respelled b ev ev' -> respelled b ((v, e) :: ev) ((v, e) :: ev')
| RE_hot v x ev ev' : In x (values_of b v) -> respelled b ev ev' ->
    respelled b ((v, Hard x) :: ev) ((v, Soft (indicator x (values_of b v))) :: ev').

(** [ev'] is [ev] with the weights of each variable multiplied by a positive number. *)
Inductive rescaled : evidence -> evidence -> Prop :=
| RS_nil : rescaled [] []
| RS_same v e ev ev' : rescaled ev ev' -> rescaled ((v, e) :: ev) ((v, e) :: ev')
| RS_times v c q ev ev' : (0 < c)%Qc -> rescaled ev ev' -> rescaled ((v, Soft q) :: ev) ((v, Soft (map (Qcmult c) q)) :: ev').

(** [ev'] is [ev] without some variables whose weights are all the same positive number. *)
Inductive weakened (b : bn) : evidence -> evidence -> Prop :=
| WK_nil : weakened b [] []
| WK_same v e ev ev' : weakened b ev ev' -> weakened b ((v, e) :: ev) ((v, e) :: ev')
| WK_drop v c ev ev' : (0 < c)%Qc -> weakened b ev ev' -> weakened b ((v, Soft (repeat c (length (values_of b v)))) :: ev) ev'.
