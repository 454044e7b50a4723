(** Relative accuracy. *)
From Verif Require Import Base NDArray Factor Exact Spec Rounded.

Fixpoint power (x : Qc) (k : nat) : Qc := match k with O => 1%Qc | S k' => (x * power x k')%Qc end.

(** [y] is within a factor of (1 + ulp)^k of the non-negative [x]. *)
Definition close {RD : Rounding} (k : nat) (x y : Qc) : Prop :=
  (0 <= x /\ 0 <= y /\ y <= power (1 + ulp) k * x /\ x <= power (1 + ulp) k * y)%Qc.

Definition sumn (l : list nat) : nat := fold_right Nat.add 0 l.

(** Numbers of values of the listed variables. *)
Definition sizes (b : bn) (vs : list string) : list nat := map (fun v => length (values_of b v)) vs.

(** Variables that are summed out. *)
Definition summed (b : bn) (Q : list string) : list string := filter (fun v => negb (mem v Q)) (bnames b).

(** Numbers of rounding errors that can pile up in a result. *)
Definition naive_errors (b : bn) (Q : list string) (ev : evidence) : nat :=
  2 * (length (bnodes b) + length ev + sumn (sizes b (summed b Q))) + prodn (sizes b Q) + 1.
Definition bucket_errors (b : bn) (Q : list string) (ev : evidence) : nat :=
  2 * (2 * length (bnodes b) + length ev + sumn (sizes b (summed b Q))) + prodn (sizes b Q) + 1.

(** Networks that differ in the numbers of their tables only, each by a factor of at
    most (1 + ulp)^k: decimal inputs and their floating-point tables. *)
Definition close_node {RD : Rounding} (k : nat) (n n' : dnode) : Prop :=
  dn_name n' = dn_name n /\ dn_values n' = dn_values n /\ dn_parents n' = dn_parents n /\ dn_pdict n' = dn_pdict n /\
  shape (dn_cpd n') = shape (dn_cpd n) /\ Forall2 (close k) (data (dn_cpd n)) (data (dn_cpd n')).
Definition close_bn {RD : Rounding} (k : nat) (b b' : bn) : Prop :=
  Forall2 (close_node k) (bnodes b) (bnodes b') /\ border b' = border b /\ bedges b' = bedges b.
