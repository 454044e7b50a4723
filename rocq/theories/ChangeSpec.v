(** Networks whose tables differ by factors. *)
From Verif Require Import Base NDArray Factor Exact Spec LawCount.

(** [changed lo hi vars k l l']: the nodes [l'] are the nodes [l], except that the tables of [k] of them have entries
    between [lo] and [hi] times what they were. *)
Inductive changed (lo hi : Qc) (vars : list (string * list string)) : nat -> list dnode -> list dnode -> Prop :=
| changed_none : changed lo hi vars 0 [] []
| changed_not k n l l' : changed lo hi vars k l l' -> changed lo hi vars k (n :: l) (n :: l')
| changed_table k n n' l l' : dn_name n' = dn_name n -> dn_values n' = dn_values n ->
    (forall s, In s (states vars) -> (lo * entry n s <= entry n' s)%Qc /\ (entry n' s <= hi * entry n s)%Qc) ->
    changed lo hi vars k l l' -> changed lo hi vars (S k) (n :: l) (n' :: l').

(** A network and a changed one; the factor by which answers may differ. *)
Definition perturbed (lo hi : Qc) (k : nat) (b b' : bn) : Prop :=
  (0 < lo)%Qc /\ (lo <= hi)%Qc /\ changed lo hi (bvars b) k (bnodes b) (bnodes b').
Fixpoint slack (lo hi : Qc) (k : nat) : Qc := match k with 0 => 1%Qc | S k' => (hi / lo * slack lo hi k')%Qc end.

(** [reweighed lo hi k vs ev ev']: the evidence on the variables [vs] is the same, except that [k] of them
    have soft evidence with weights between [lo] and [hi] times what they were. *)
Inductive reweighed (lo hi : Qc) (ev ev' : evidence) : nat -> list string -> Prop :=
| reweighed_none : reweighed lo hi ev ev' 0 []
| reweighed_not k v vs : dget v ev' = dget v ev -> reweighed lo hi ev ev' k vs -> reweighed lo hi ev ev' k (v :: vs)
| reweighed_soft k v vs q q' : dget v ev = Some (Soft q) -> dget v ev' = Some (Soft q') ->
    Forall2 (fun x y => (lo * x <= y)%Qc /\ (y <= hi * x)%Qc) q q' -> reweighed lo hi ev ev' k vs -> reweighed lo hi ev ev' (S k) (v :: vs).
