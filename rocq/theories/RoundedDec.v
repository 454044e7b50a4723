(** The class VariableElimination of decision.py in rounded arithmetic.  The algorithms
    of Decision.v with the operations on factors as arguments; [dec_by_exact]
    (RoundedDecProof.v) shows that with the exact operations they are the functions of
    Decision.v. *)
From Verif Require Import Base NDArray Factor Node Network Decision Exact Rounded RoundedTree.

(** Rounding treats the signs alike (IEEE 754, round to nearest); utilities may be
    negative.  factor.py:63-136, 161-236 on the tables of nodes.py:478-522. *)
Class Symmetric (RD : Rounding) := rnd_opp : forall x, rnd (- x)%Qc = (- rnd x)%Qc.

(** factor.py:63-136 [__add__]. *)
Definition raddf {RD : Rounding} {SO : SetOrder} : factor -> factor -> res factor := fcombine (fun x y => rnd (x + y)%Qc).

(** nodes.py:594-596 [fully_mixed]: the quotient is rounded. *)
Definition rfully_mixed {RD : Rounding} (n : node) : res node :=
  let* n' := fully_mixed n in
  Ok (with_cpd n' (TArr false (amap rnd (tarr (ncpd n')))) (nvalid n')).

Section Algorithms.
Context {BO : BagOrder}.
Variables (mul add : factor -> factor -> res factor) (marg : factor -> string -> res factor)
  (inv : factor -> res factor) (mix : node -> res node).

(** decision.py:43-44 [_combine_two_factors]. *)
Definition combine_two_by (f1 f2 : jfactor) : res jfactor :=
  let* p := mul (fst f1) (fst f2) in
  let* u := add (snd f1) (snd f2) in
  Ok (p, u).

(** decision.py:28-46 [_combine_factors]. *)
Definition combine_factors_by (l : list jfactor) : res jfactor :=
  match l with
  | [] => Err TypeError
  | f :: l' => foldM combine_two_by l' f
  end.

(** decision.py:48-67 [_marginalize_joint_factor]. *)
Definition marginalize_joint_by (f : jfactor) (v : string) : res jfactor :=
  let* tmp := marg (fst f) v in
  let* pu := mul (fst f) (snd f) in
  let* m := marg pu v in
  let* u := div_by mul inv m tmp in
  Ok (tmp, u).

(** decision.py:92-98. *)
Fixpoint eliminate_by (k : nat) (working : list jfactor) (vars : list string) : res (list jfactor) :=
  match vars with
  | [] => Ok working
  | v :: vars' =>
      let relevant := filter (fun f => mem v (vorder (fst f))) working in
      let* tmp := combine_factors_by (bag k relevant) in
      let* m := marginalize_joint_by tmp v in
      eliminate_by (S k) (filter (fun f => negb (mem v (vorder (fst f)))) working ++ [m]) vars'
  end.

(** decision.py:69-102 [generalized_VE]. *)
Definition generalized_VE_by (factors : list jfactor) (vars : list string) : res jfactor :=
  let* l := eliminate_by 0 factors vars in
  combine_factors_by (bag (length vars) l).

(** decision.py:104-135 [expected_utility]. *)
Definition expected_utility_by (w : dworld) (ds : dict string) : dworld * res ndarray :=
  match decide_all w ds with
  | (w', Err e) => (w', Err e)
  | (w', Ok _) =>
      (w', let* fs := net_factors w' in
           let* r := generalized_VE_by fs (chance_names w') in
           Ok (pot (snd r)))
  end.

(** decision.py:138-174 [_optimize_locally]. *)
Definition optimize_locally_by (w : dworld) (v : string) : res string :=
  let* i := dget_err KeyError v (dlook w) in
  let* n := hget (dheap w) i in
  let* fs := net_factors w in
  let* r := generalized_VE_by fs
    (filter (fun u => negb (String.eqb u v) && negb (dmem u (nparents n)))
            (map fst (filter (fun p => negb (is_utility (deref (dheap w) (snd p)))) (dlook w)))) in
  let* vs := values_attr n in
  let* b := best (snd r) v vs None in
  match b with Some (_, d) => Ok d | None => Err NonFinite end.

(** decision.py:204-209. *)
Fixpoint prepare_by (w : dworld) (order : list string) (fixed : dict string) : dworld * res unit :=
  match order with
  | [] => (w, Ok tt)
  | v :: order' =>
      match dget v (dlook w) with
      | None => (w, Err KeyError)
      | Some i =>
          match (match dget v fixed with
                 | None => d_on_node w i mix
                 | Some d => d_decide w i d
                 end) with
          | (w', Ok _) => prepare_by w' order' fixed
          | r => r
          end
      end
  end.

(** decision.py:177-216 [get_optimal_decisions]. *)
Definition optimal_decisions_by (w : dworld) (order : list string) (fixed : dict string)
  : dworld * res (dict string) :=
  match prepare_by w order fixed with
  | (w', Err e) => (w', Err e)
  | (w', Ok _) =>
      (w', foldM (fun sol v => let* d := optimize_locally_by w' v in Ok (dset v d sol)) order [])
  end.
End Algorithms.

Section Rounded.
Context {RD : Rounding} {AD : Adding} {SO : SetOrder} {BO : BagOrder}.

(** decision.py:104-135 in rounded arithmetic. *)
Definition rexpected_utility := expected_utility_by rmul raddf rmarg rinvert.
(** decision.py:204-209 in rounded arithmetic. *)
Definition rprepare := prepare_by rfully_mixed.
(** decision.py:177-216 in rounded arithmetic. *)
Definition roptimal_decisions := optimal_decisions_by rmul raddf rmarg rinvert rfully_mixed.
End Rounded.
