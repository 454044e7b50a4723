(** Which exception an operation on factors raises, and what a product or sum of factors is when a
    common variable has one value in one of them. *)
From Verif Require Import Base NDArray Factor Exact Spec FactorSpec.

(** A common variable with different numbers of values, neither of which is one. *)
Definition clash (f g : factor) : Prop :=
  exists v, In v (vorder f) /\ In v (vorder g) /\
    length (fvalues f v) <> length (fvalues g v) /\ length (fvalues f v) <> 1 /\ length (fvalues g v) <> 1.

(** A common variable with one value on the left and another number of values on the right. *)
Definition too_short (f g : factor) : Prop :=
  exists v, In v (vorder f) /\ In v (vorder g) /\ length (fvalues f v) = 1 /\ length (fvalues g v) <> 1.

(** The entry for a choice of positions; a variable with one value is read at its only position. *)
Definition entry_at (f : factor) (a : string -> nat) : Qc :=
  aget (pot f) (map (fun v => if Nat.eqb (length (fvalues f v)) 1 then 0 else a v) (vorder f)).

(** The number of positions of a variable in a product or sum. *)
Definition positions (f g : factor) (v : string) : nat :=
  if mem v (vorder f)
  then if mem v (vorder g) && Nat.eqb (length (fvalues f v)) 1 then length (fvalues g v) else length (fvalues f v)
  else length (fvalues g v).

(** The only number of a factor without variables. *)
Definition only_zero (f : factor) : Prop := vorder f = [] /\ potential_at f [] = 0%Qc.

(** The first listed variable for which the sample has no value, or an unknown one. *)
Definition bad_sample (vars : dict (list string)) (s : dict string) (e : exc) : Prop :=
  exists vars1 v l vars2, vars = vars1 ++ (v, l) :: vars2 /\ sample_ok vars1 s /\
    ((e = KeyError /\ ~ In v (dkeys s)) \/ (e = ValueError /\ exists x, dget v s = Some x /\ ~ In x l)).

(** Evidence that is not about the values. *)
Definition misfit (values : list string) (e : evid) : Prop :=
  match e with Hard x => ~ In x values | Soft q => length q <> length values end.
