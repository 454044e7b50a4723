(** What can be wrong with the calls on a FactorTree, and which exception says so. *)
From Verif Require Import Base Factor Exact Spec TreeSpec ErrSpec.

(** One item of evidence.  With [post] the weights are desired posteriors; weights that are all zero cannot be
    reached if a value other than the first is possible. *)
Inductive item_fault (b : bn) (post : bool) (v : string) (e : evid) : exc -> Prop :=
| I_unknown : ~ In v (bnames b) -> item_fault b post v e PlainException
| I_improper : In v (bnames b) -> improper b v e -> item_fault b post v e ValueError
| I_zero q i : post = true -> e = Soft q -> In v (bnames b) -> length q = length (values_of b v) -> Forall (eq 0%Qc) q ->
    0 < i < length q -> nth i (prior b v) 0%Qc <> 0%Qc -> item_fault b post v e NonFinite.

(** The first fault of the evidence; for desired posteriors all names are looked up in the tree beforehand. *)
Inductive evidence_fault (b : bn) (post : bool) (ev : evidence) : exc -> Prop :=
| E_prior v : post = true -> In v (dkeys ev) -> ~ In v (bnames b) -> evidence_fault b post ev ValueError
| E_item l v e l' x : (post = true -> incl (dkeys ev) (bnames b)) -> ev = l ++ (v, e) :: l' ->
    (forall w y z, In (w, y) l -> ~ item_fault b post w y z) -> item_fault b post v e x -> evidence_fault b post ev x.
