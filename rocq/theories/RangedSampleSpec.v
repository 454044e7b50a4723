(** The range of numbers sampling needs.  No reference to the sampling code. *)
From Verif Require Import Base NDArray Factor Exact Spec Sampling Rounded RoundedSpec RangedSpec RoundedSampleSpec.

(** The random numbers are 0 or at least 1/[U]. *)
Definition grainy (U : Qc) (g : rng) : Prop := forall k, amid U (unif g k).

(** The largest number of children of a variable. *)
Definition fanout (b : bn) : nat :=
  fold_right Nat.max 0 (map (fun n => length (filter (fun e => String.eqb (dn_name n) (fst e)) (bedges b))) (bnodes b)).

(** The largest number that can come up, and the reciprocal of the smallest.  A variable is
    drawn from [tables] tables: their product, the sum over the values, the random
    number. *)
Definition draw_need {RD : Rounding} (P U : Qc) (b : bn) (tables : nat) : Qc :=
  (power P tables * power (1 + 1) (widest b) * power (1 + ulp) (tables + widest b) * U)%Qc.
(** The ratio of two products. *)
Definition ratio_need {RD : Rounding} (P : Qc) (tables : nat) : Qc :=
  (power P (2 * tables) * power (1 + ulp) (2 * tables))%Qc.
(** An update looks at the tables of the variable and of its children; it does not depend
    on the size of the network or the length of the run. *)
Definition chain_need {RD : Rounding} (t : transition) (P U : Qc) (b : bn) : Qc :=
  match t with Gibbs => draw_need P U b (S (fanout b)) | MetropolisHastings => ratio_need P (S (fanout b)) end.
