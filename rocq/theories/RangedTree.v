(** The class FactorTree (exact.py:168-451) in an arithmetic of limited range: the program of
    RoundedTree.v with the operations of Ranged.v.  Evidence is set with softPosteriors=False. *)
From Verif Require Import Base NDArray Factor Exact Order JoinTree Rounded RoundedTree Ranged.

(** [1.0 / potentials] in an array, after which infinite entries become 0 (factor.py:277-279): as
    in Rounded.v between 1/[top] and [top], anything elsewhere. *)
Class Inverting {RD : Rounding} {LM : Limits} := {
  finite : Qc -> Qc;
  finite_inside : forall x, (1 <= x * top -> x <= top -> finite x = rnd x)%Qc
}.

Section Ranged.
Variables r i : Qc -> Qc.

(** factor.py:257-280 [invert]; [r] rounds the quotient of a single number (272), [i] those of a table. *)
Definition invert_with (f : factor) : res factor :=
  match vorder f with
  | [] => if existsb (fun x => qeqb x 0%Qc) (data (pot f)) then Err FloatingPointError
          else Ok (mkF (amap (fun x => r (Qcinv x)) (pot f)) (vorder f) (fvals f))
  | _ => Ok (mkF (amap (fun x => if qeqb x 0%Qc then 0%Qc else i (Qcinv x)) (pot f))
                 (vorder f) (fvals f))
  end.
End Ranged.

Section Limited.
Context {RD : Rounding} {LM : Limits} {IV : Inverting} {AD : Adding} {SO : SetOrder}.
(** exact.py:175-265 in arithmetic of limited range. *)
Definition limited_jointree : bn -> option (list string) -> res jtree := create_jointree_by (mul_with lim).
(** exact.py:268-290 in arithmetic of limited range. *)
Definition limited_reset : bn -> jtree -> jtree * res unit := reset_factors_by (mul_with lim).
(** exact.py:293-337 in arithmetic of limited range. *)
Definition limited_evidence : bn -> evidence -> jtree -> jtree * res unit :=
  set_evidence_by (mul_with lim) (marg_with lim) (invert_with lim finite).
(** exact.py:382-394 in arithmetic of limited range. *)
Definition limited_messages : jtree -> jtree * res unit :=
  calculate_messages_by (mul_with lim) (marg_with lim) (invert_with lim finite).
(** exact.py:339-376 in arithmetic of limited range. *)
Definition limited_tree : jtree -> list string -> jtree * res factor :=
  tmarginals_by (mul_with lim) (marg_with lim) (invert_with lim finite) (normalize_with lim).
End Limited.
