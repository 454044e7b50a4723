(** The range of numbers a query needs. *)
From Verif Require Import Base NDArray Factor Exact Spec Rounded RoundedSpec.

(** Zero, or between 1/[P] and [P]. *)
Definition amid (P x : Qc) : Prop := (x = 0 \/ 1 <= x * P /\ x <= P)%Qc.

(** All numbers in tables and soft evidence are. *)
Definition tame (P : Qc) (b : bn) (ev : evidence) : Prop :=
  (1 <= P)%Qc /\ (forall n, In n (bnodes b) -> Forall (amid P) (data (dn_cpd n))) /\
  (forall v q, In (v, Soft q) ev -> Forall (amid P) q).

(** Powers of two for the additions. *)
Definition spread (b : bn) (Q : list string) : nat :=
  sumn (map pred (sizes b (summed b Q))) + prodn (sizes b Q).

(** The largest number that can come up, and the reciprocal of the smallest. *)
Definition need {RD : Rounding} (P : Qc) (tables spread errors : nat) : Qc :=
  (power P (2 * tables) * power (1 + 1) spread * power (1 + ulp) errors)%Qc.
Definition naive_need {RD : Rounding} (P : Qc) (b : bn) (Q : list string) (ev : evidence) : Qc :=
  need P (length (bnodes b) + length ev) (spread b Q) (naive_errors b Q ev).
Definition bucket_need {RD : Rounding} (P : Qc) (b : bn) (Q : list string) (ev : evidence) : Qc :=
  need P (length (bnodes b) + length ev) (spread b Q) (bucket_errors b Q ev).
