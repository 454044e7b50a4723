(** How far sampling with rounded probabilities can stray.  No reference to the
    sampling code. *)
From Coq Require Import ZArith.
From Verif Require Import Base NDArray Factor Exact Spec Sampling Rounded RoundedSpec LawSpec.

(** The largest number of values of a variable. *)
Definition widest (b : bn) : nat := fold_right Nat.max 1 (map (fun n => length (dn_values n)) (bnodes b)).

(** Rounding errors that can pile up in the comparison of a random number with a
    probability: multiplying the tables of the children and adding up the values, for
    both sides. *)
Definition draw_errors (b : bn) : nat := 2 * (length (bedges b) + widest b) + 1.

(** A bound for the probability that one update of one variable takes another turn than in
    exact arithmetic, if random.random() returns one of [N] equally spaced numbers: the random
    number has to fall next to one of the thresholds. *)
Definition slip {RD : Rounding} (b : bn) (N : nat) : Qc :=
  (qnat (widest b) * (RoundedSpec.power (1 + ulp) (2 * draw_errors b) - 1 + / qnat N))%Qc.

(** Variables updated in one transition step. *)
Definition updates (full : bool) (vars : list string) : nat := if full then length vars else 1.

(** Equality of results. *)
Definition exc_dec (a b : exc) : {a = b} + {a <> b}.
Proof. decide equality. Defined.
Definition entry_dec (a b : string * string) : {a = b} + {a <> b}.
Proof. decide equality; apply string_dec. Defined.
Definition state_dec (a b : dict string) : {a = b} + {a <> b} := list_eq_dec entry_dec a b.
Definition res_dec {A} (dec : forall a b : A, {a = b} + {a <> b}) (a b : res A) : {a = b} + {a <> b}.
Proof. decide equality; apply exc_dec. Defined.
Definition differ_runs (a b : res (list (dict string))) : bool := if res_dec (list_eq_dec state_dec) a b then false else true.
Definition sample_dec (a b : dict string * nat) : {a = b} + {a <> b}.
Proof. decide equality; [apply Nat.eq_dec|apply state_dec]. Defined.
Definition differ_samples (a b : res (dict string * nat)) : bool := if res_dec sample_dec a b then false else true.

(** The whole numbers up to [n] are numbers of the arithmetic (2^53 for doubles). *)
Definition counts_exactly {RD : Rounding} (n : nat) : Prop := forall k, k <= n -> rnd (qnat k) = qnat k.
