(** How far rounding can take expected utilities and decisions. *)
From Verif Require Import Base NDArray Factor Exact Spec Node Network Decision DecSpec Rounded RoundedSpec.

(** The size of a number. *)
Definition magnitude (x : Qc) : Qc := if qleb 0%Qc x then x else (- x)%Qc.

(** The expectation of the summed sizes of the utilities. *)
Definition utility_sizes (w : dworld) (s : dict string) : Qc := qsum (map (fun u => magnitude (utility u s)) (dutils w)).
Definition plan_scale (w : dworld) (ds : dict string) : Qc :=
  (plan_sum w ds (utility_sizes w) / plan_sum w ds (fun _ => 1%Qc))%Qc.

(** The number of rounding errors: all nodes, and for each chance or decision node
    twice the nodes and values. *)
Definition utility_errors (w : dworld) : nat :=
  let n := length (dlook w) in
  let cards := map (fun d => length (dn_values d)) (bnodes (dbn w)) in
  n + length cards * (2 * (n + sumn cards) + 1).

(** The relative error of [k] roundings. *)
Definition relative {RD : Rounding} (k : nat) : Qc := (power (1 + ulp) k - 1)%Qc.

(** What choosing by rounded values may lose. *)
Definition regret {RD : Rounding} (w : dworld) (v d x : string) : Qc :=
  (relative (utility_errors w) * (plan_scale w [(v, d)] + plan_scale w [(v, x)]))%Qc.
Definition near_best {RD : Rounding} (w : dworld) (v : string) (l : list string) (d : string) : Prop :=
  In d l /\ forall x, In x l -> (plan_value w [(v, x)] <= plan_value w [(v, d)] + regret w v d x)%Qc.
