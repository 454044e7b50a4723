(** Variable elimination in an arithmetic of limited range.  Rounded.v has numbers of
    every size; here results that are too small or too large may come out as anything
    (0, for doubles that underflow).  The functions are those of Rounded.v with the
    rounding as an argument. *)
From Verif Require Import Base NDArray Factor Exact Order Rounded.

(** Rounding that is as in Rounded.v between 1/[top] and [top].  IEEE 754 doubles, as used
    by numpy arrays (factor.py:91-96, 134, 189-194, 234, 321, 537, 591; nodes.py:138):
    [top] is 2^1022, the smallest normal number 2^-1022. *)
Class Limits {RD : Rounding} := {
  lim : Qc -> Qc;
  top : Qc;
  lim_zero : lim 0%Qc = 0%Qc;
  lim_inside : forall x, (1 <= x * top -> x <= top -> lim x = rnd x)%Qc
}.

Section Ranged.
Context {AD : Adding} {SO : SetOrder}.
Variable r : Qc -> Qc.

(** Evaluation of a sum (factor.py:321, 537, 589). *)
Fixpoint add_tree_with (t : stree) (l : list Qc) : Qc :=
  match t with One i => nth i l 0%Qc | Both a b => r (add_tree_with a l + add_tree_with b l)%Qc end.

(** [np.sum] of a list of numbers (factor.py:321, 537, 589). *)
Definition sum_with (tag : list nat) (l : list Qc) : Qc :=
  match l with [] => 0%Qc | _ => add_tree_with (plan (length l) tag) l end.

(** [np.sum(a, axis=k)], factor.py:537. *)
Definition sum_axis_with (k : nat) (a : ndarray) : ndarray :=
  tabulate (list_del k (shape a))
    (fun idx => sum_with (k :: idx) (map (fun i => aget a (list_insert k i idx)) (seq 0 (nth k (shape a) 0)))).

(** factor.py:161-236 [__mul__]. *)
Definition mul_with : factor -> factor -> res factor := fcombine (fun x y => r (x * y)%Qc).

(** factor.py:513-541 [marginalize], one variable. *)
Definition marg_with (f : factor) (v : string) : res factor :=
  let* k := py_index v (vorder f) in
  if dmem v (fvals f) then
    Ok (mkF (sum_axis_with k (pot f)) (remove1 v (vorder f)) (ddel v (fvals f)))
  else Err KeyError.

(** factor.py:584-591 [normalize]. *)
Definition normalize_with (f : factor) : factor :=
  let s := sum_with [] (data (pot f)) in
  if qltb 0%Qc s then mkF (amap (fun x => r (x / s)%Qc) (pot f)) (vorder f) (fvals f)
  else f.
End Ranged.

(** exact.py:33-82 [naive_marginals] in arithmetic of limited range. *)
Definition limited_naive {RD : Rounding} {LM : Limits} {AD : Adding} {SO : SetOrder} :=
  naive_by (mul_with lim) (marg_with lim) (normalize_with lim).
(** exact.py:86-166 [bucket_marginals] in arithmetic of limited range. *)
Definition limited_bucket {RD : Rounding} {LM : Limits} {AD : Adding} {SO : SetOrder} :=
  bucket_by (mul_with lim) (marg_with lim) (normalize_with lim).
