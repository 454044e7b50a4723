(** What factors mean, stated on their public attributes only: a factor assigns
    a number ([potential_at], Spec.v) to every instantiation of its variables. *)
From Verif Require Import Base NDArray Factor Exact Spec.

(** Value names of a variable of the factor. *)
Definition fvalues (f : factor) (v : string) : list string :=
  match dget v (fvals f) with Some l => l | None => [] end.

(** The attributes fit together: every variable once, one axis per variable in
    variable order with one position per value, distinct value names. *)
Record good_factor (f : factor) : Prop := {
  gf_vars : NoDup (vorder f);
  gf_keys : NoDup (dkeys (fvals f));
  gf_same : forall v, In v (dkeys (fvals f)) <-> In v (vorder f);
  gf_shape : shape (pot f) = map (fun v => length (fvalues f v)) (vorder f);
  gf_data : length (data (pot f)) = prodn (shape (pot f));
  gf_values : forall v, In v (vorder f) -> NoDup (fvalues f v)
}.

(** Shared variables have the same value lists. *)
Definition compatible (f g : factor) : Prop :=
  forall v, In v (vorder f) -> In v (vorder g) -> fvalues f v = fvalues g v.

(** [q] in the names of [g]: values of common variables are replaced by those at the
    same position in the list of [g]. *)
Definition translated (f g : factor) (q : dict string) : dict string :=
  map (fun p => (fst p, if mem (fst p) (vorder f) && mem (fst p) (vorder g)
                        then nth (position (snd p) (fvalues f (fst p))) (fvalues g (fst p)) "" else snd p)) q.

(** [q] gives every variable of [f] one of its values. *)
Definition legal (f : factor) (q : dict string) : Prop :=
  forall v, In v (vorder f) -> exists x, dget v q = Some x /\ In x (fvalues f v).

(** Decision procedure for concrete factors. *)
Fixpoint nodup_s (l : list string) : bool :=
  match l with [] => true | x :: l' => negb (mem x l') && nodup_s l' end.
Definition good_factorb (f : factor) : bool :=
  nodup_s (vorder f) && nodup_s (dkeys (fvals f)) && subset (dkeys (fvals f)) (vorder f) &&
  subset (vorder f) (dkeys (fvals f)) &&
  (if list_eq_dec Nat.eq_dec (shape (pot f)) (map (fun v => length (fvalues f v)) (vorder f))
   then true else false) &&
  Nat.eqb (length (data (pot f))) (prodn (shape (pot f))) &&
  forallb (fun v => nodup_s (fvalues f v)) (vorder f).

(** The values of [v] a selection asks for: the listed ones, or all. *)
Definition choice (f : factor) (sel : dict (list string)) (v : string) : list string :=
  match dget v sel with Some l => l | None => fvalues f v end.

(** A sample gives every listed variable one of its listed values. *)
Definition sample_ok (vars : dict (list string)) (s : dict string) : Prop :=
  forall v l, In (v, l) vars -> exists x, dget v s = Some x /\ In x l.
