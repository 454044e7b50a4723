(** How deep a join tree is, and uses of a FactorTree under a recursion limit. *)
From Verif Require Import Base NDArray Factor Exact Spec Order OrderSpec JoinTree TreeSpec RecLimit.

(** A path with [n] links and no repeated clique leads away from the first clique. *)
Definition deep (t : jtree) (n : nat) : Prop := exists root rest l,
  tree_keys t = root :: rest /\ NoDup (root :: l) /\ walk (tree_adj t) root l /\ length l = n.

(** Any use of the FactorTree created for [b0] and [order], under a recursion limit. *)
Inductive session_within {SO : SetOrder} (limit : nat) (b0 : bn) (order : option (list string)) : jtree -> Prop :=
| SW_create t : create_jointree b0 order = Ok t -> session_within limit b0 order t
| SW_evidence b ev soft t : session_within limit b0 order t -> session_within limit b0 order (fst (set_evidence_within limit b ev soft t))
| SW_reset b t : session_within limit b0 order t -> session_within limit b0 order (fst (reset_factors b t))
| SW_messages t : session_within limit b0 order t -> session_within limit b0 order (fst (calculate_messages_within limit t))
| SW_query Q t : session_within limit b0 order t -> session_within limit b0 order (fst (tmarginals_within limit t Q)).

(** Chains X0 -> X1 -> ... -> Xn of two-valued nodes; the name of Xi is i times "1" and a "0". *)
Fixpoint xname (i : nat) : string := match i with 0 => "0" | S j => ("1" ++ xname j)%string end.
Definition xroot (i : nat) : dnode := mkN (xname i) ["t"; "f"] [] [] (mkArr [2] [qfrac 1 2; qfrac 1 2]).
Definition xlink (i : nat) : dnode :=
  mkN (xname (S i)) ["t"; "f"] [(xname i, ["t"; "f"])] [xname i] (mkArr [2; 2] [qfrac 1 2; qfrac 1 2; qfrac 1 2; qfrac 1 2]).
Definition chain_of (n : nat) : bn :=
  mkBN (xroot 0 :: map xlink (seq 0 n)) (map xname (seq 0 (S n))) (map (fun i => (xname i, xname (S i))) (seq 0 n)).
