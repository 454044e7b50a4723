(** Common vocabulary of the model: exceptions as values, Python lists and
    dictionaries, exact numbers. *)
From Coq Require Export String Bool Arith ZArith Lia QArith.QArith_base QArith.Qcanon Permutation List.
Export ListNotations.
Open Scope string_scope.
Open Scope list_scope.
Open Scope Qc_scope.
Open Scope nat_scope.

(** Python exceptions that the modelled code can raise. [PlainException] is a
    bare [Exception(...)] (networks.py:64,72,93,125); [NonFinite] is not an
    exception of the code: it marks results that would hold inf/nan, which the
    exact numbers of the model do not have, and [NoneText] marks a None in a place
    where the model has strings only (io.py:63-64, 74, 81). *)
Inductive exc :=
| ValueError | KeyError | TypeError | IndexError | AttributeError
| FloatingPointError | ZeroDivisionError | StructureError | RecursionError
| PlainException | NotImplementedError | NetworkXError | NetworkXUnfeasible | RuntimeError | FileNotFoundError
| NonFinite | NoneText.

(** What a call gives: a value or an exception (all of /repo/primo2, e.g. raised at factor.py:156, nodes.py:172). *)
Inductive res (A : Type) := Ok (a : A) | Err (e : exc).
Arguments Ok {A} a.
Arguments Err {A} e.

(** Sequencing: an exception ends the function (Python semantics; e.g. factor.py:537-539). *)
Definition rbind {A B} (x : res A) (f : A -> res B) : res B :=
  match x with Ok a => f a | Err e => Err e end.
(** Notation for [rbind]; one Python statement after another, e.g. factor.py:197-234. *)
Notation "'let*' x := e 'in' k" := (rbind e (fun x => k))
  (at level 200, x pattern, e at level 100, k at level 200, right associativity).

(** A [for] loop that updates a local variable, e.g. exact.py:67-71, 75-77. *)
Fixpoint foldM {A B} (f : B -> A -> res B) (l : list A) (b : B) : res B :=
  match l with
  | [] => Ok b
  | x :: l' => let* b' := f b x in foldM f l' b'
  end.

(** A list comprehension or appending loop, e.g. factor.py:228, 319, 573. *)
Fixpoint mapM {A B} (f : A -> res B) (l : list A) : res (list B) :=
  match l with
  | [] => Ok []
  | x :: l' => let* y := f x in let* ys := mapM f l' in Ok (y :: ys)
  end.

(** [x in l], [l.index(x)] and [l.remove(x)] for lists of strings.
    Used e.g. at exact.py:76, factor.py:571. *)
Definition mem (x : string) (l : list string) : bool := existsb (String.eqb x) l.

(** [l.index(x)], first occurrence; None where Python raises (e.g. factor.py:228, nodes.py:202). *)
Fixpoint index_of (x : string) (l : list string) : option nat :=
  match l with
  | [] => None
  | y :: l' => if String.eqb x y then Some 0
               else match index_of x l' with Some i => Some (S i) | None => None end
  end.

(** [l.index(x)] with its ValueError (e.g. factor.py:228, 537, nodes.py:202). *)
Definition py_index (x : string) (l : list string) : res nat :=
  match index_of x l with Some i => Ok i | None => Err ValueError end.

(** [l.remove(x)], first occurrence (e.g. factor.py:539, nodes.py:154, exact.py:126). *)
Fixpoint remove1 (x : string) (l : list string) : list string :=
  match l with
  | [] => []
  | y :: l' => if String.eqb x y then l' else y :: remove1 x l'
  end.

(** [set(a).issubset(b)] (factor.py:155, exact.py:221, 252, 262, 370). *)
Definition subset (a b : list string) : bool := forallb (fun x => mem x b) a.

(** Python dictionaries with string keys, in insertion order.
    Used for [values] (factor.py:41), [parents] (nodes.py:87), [node_lookup] (networks.py:32). *)
Definition dict (A : Type) := list (string * A).

(** [d[k]] / [k in d] (e.g. factor.py:211, networks.py:61); None if missing. *)
Fixpoint dget {A} (k : string) (d : dict A) : option A :=
  match d with
  | [] => None
  | (k', v) :: d' => if String.eqb k k' then Some v else dget k d'
  end.

(** Assignment keeps the position of an existing key, else appends.
    E.g. factor.py:211, nodes.py:106, networks.py:41. *)
Fixpoint dset {A} (k : string) (v : A) (d : dict A) : dict A :=
  match d with
  | [] => [(k, v)]
  | (k', v') :: d' => if String.eqb k k' then (k', v) :: d' else (k', v') :: dset k v d'
  end.

(** [del d[k]] (factor.py:538, nodes.py:153, networks.py:52). *)
Fixpoint ddel {A} (k : string) (d : dict A) : dict A :=
  match d with
  | [] => []
  | (k', v') :: d' => if String.eqb k k' then d' else (k', v') :: ddel k d'
  end.

(** [d.keys()], or iteration over a dict (networks.py:132, factor.py:155). *)
Definition dkeys {A} (d : dict A) : list string := map fst d.
(** [k in d] (e.g. networks.py:38, exact.py:70). *)
Definition dmem {A} (k : string) (d : dict A) : bool :=
  match dget k d with Some _ => true | None => false end.

(** [d[k]] with the exception raised for a missing key (e.g. factor.py:211). *)
Definition dget_err {A} (e : exc) (k : string) (d : dict A) : res A :=
  match dget k d with Some v => Ok v | None => Err e end.

(** [l[i] = x] (e.g. networks.py:109, exact.py:139); also writing to an object of the heap. *)
Fixpoint list_set {A} (i : nat) (x : A) (l : list A) : list A :=
  match l, i with
  | [], _ => []
  | _ :: l', O => x :: l'
  | y :: l', S j => y :: list_set j x l'
  end.

(** [l.insert(i, x)] (exact.py:228); also used for indices in NDArray.v. *)
Fixpoint list_insert {A} (i : nat) (x : A) (l : list A) : list A :=
  match i, l with
  | O, _ => x :: l
  | S j, [] => [x]
  | S j, y :: l' => y :: list_insert j x l'
  end.

(** [del l[i]] for the shape of [np.sum(a, axis=i)] (factor.py:537). *)
Fixpoint list_del {A} (i : nat) (l : list A) : list A :=
  match l, i with
  | [], _ => []
  | _ :: l', O => l'
  | y :: l', S j => y :: list_del j l'
  end.

(** Exact numbers.
    [sum(l)], [np.sum(l)] (nodes.py:385, factor.py:589); rationals stand for floats. *)
Fixpoint qsum (l : list Qc) : Qc :=
  match l with [] => 0%Qc | x :: l' => (x + qsum l')%Qc end.
(** Product of a list; used by specifications only, no counterpart in /repo. *)
Fixpoint qprod (l : list Qc) : Qc :=
  match l with [] => 1%Qc | x :: l' => (x * qprod l')%Qc end.
(** [x == y] on numbers (factor.py:501). *)
Definition qeqb (x y : Qc) : bool := Qc_eq_bool x y.
(** [x < y] on numbers (factor.py:590, decision.py:170). *)
Definition qltb (x y : Qc) : bool := match Qccompare x y with Lt => true | _ => false end.
(** [x <= y] on numbers (mcmc.py:228, 240; nodes.py:389). *)
Definition qleb (x y : Qc) : bool := negb (qltb y x).
(** A fraction as a number; used for examples, no counterpart in /repo. *)
Definition qfrac (n : Z) (d : positive) : Qc := Q2Qc (Qmake n d).
(** [len(l)] used as a number (nodes.py:596). *)
Definition qnat (n : nat) : Qc := Q2Qc (inject_Z (Z.of_nat n)).

(** Sum over i < n.  For [np.sum(a, axis=k)] (factor.py:537). *)
Definition bigsum (n : nat) (F : nat -> Qc) : Qc := qsum (map F (seq 0 n)).

(** Iteration order of Python sets.  [sdiff a b] lists the elements of
    [set(a) - set(b)] in the order in which CPython iterates over it: some
    duplicate-free order that depends on hash seeds and table history.
    All theorems quantify over it.
    Used for factor.py:102, 122, 200, 220 and exact.py:371, 419, 445. *)
Class SetOrder := {
  sdiff : list string -> list string -> list string;
  sdiff_nodup : forall a b, NoDup (sdiff a b);
  sdiff_spec : forall a b x, In x (sdiff a b) <-> In x a /\ ~ In x b
}.

Global Arguments Qcplus : simpl never.
Global Arguments Qcmult : simpl never.
Global Arguments Qcopp : simpl never.
Global Arguments Qcminus : simpl never.
Global Arguments Qcinv : simpl never.
Global Arguments Qcdiv : simpl never.
Global Arguments Q2Qc : simpl never.
Global Arguments Nat.ltb : simpl never.
