(** Model of decision networks: primo2/networks.py (class DecisionNetwork), the
    factors of primo2/inference/factor.py for them, and
    primo2/inference/decision.py (class VariableElimination). *)
From Verif Require Import Base NDArray Factor Node Network.

(** networks.py:318-321: a decision network is its node_lookup; the node objects
    live in the heap. *)
Record dworld := mkDW { dheap : heap; dlook : dict oid }.

(** networks.py:323-324 [add_node]: no check, a node of the same name is replaced. *)
Definition d_add_node (w : dworld) (i : oid) : dworld * res unit :=
  match nth_error (dheap w) i with
  | None => (w, Err AttributeError)
  | Some n => (mkDW (dheap w) (dset (nname n) i (dlook w)), Ok tt)
  end.

(** networks.py:326-327 [add_edge]. *)
Definition d_add_edge (w : dworld) (u v : string) : dworld * res unit :=
  match dget v (dlook w), dget u (dlook w) with
  | Some c, Some p => let r := add_parent (dheap w) c p in (mkDW (fst r) (dlook w), snd r)
  | _, _ => (w, Err KeyError)
  end.

(** A method call on the object [i] that either changes it or raises.
    nodes.py:157-218, 478-522, 594-596. *)
Definition d_on_node (w : dworld) (i : oid) (f : node -> res node) : dworld * res unit :=
  match nth_error (dheap w) i with
  | None => (w, Err AttributeError)
  | Some n => match f n with
              | Ok n' => (mkDW (list_set i n' (dheap w)) (dlook w), Ok tt)
              | Err e => (w, Err e)
              end
  end.

(** nodes.py:573-592 [set_decision] on the object [i]; it may raise after having
    changed the table. *)
Definition d_decide (w : dworld) (i : oid) (d : string) : dworld * res unit :=
  match nth_error (dheap w) i with
  | None => (w, Err AttributeError)
  | Some n => let r := set_decision n d in (mkDW (list_set i (fst r) (dheap w)) (dlook w), snd r)
  end.

(** The calls that build a decision network and change its tables.  (Calling
    [set_values] or [remove_parent] on a DiscreteNode directly, behind the
    network's back, is not modelled here; see Network.v for those methods.)
    networks.py:318-327; nodes.py:74-218, 418-522, 533-596. *)
Inductive dop :=
| DNew (k : kind) (name : string) (values : list string)
| DAdd (i : oid)
| DEdge (u v : string)
| DCpd (i : oid) (int : bool) (a : ndarray)
| DProb (i : oid) (x : string) (p : Qc) (pv : dict string)
| DUtilities (i : oid) (int : bool) (a : ndarray)
| DUtility (i : oid) (u : Qc) (pv : dict string)
| DDecide (i : oid) (d : string)
| DMixed (i : oid).

(** networks.py:318-327; nodes.py:74-218, 418-522, 533-596: one call. *)
Definition dexec (w : dworld) (o : dop) : dworld * res unit :=
  match o with
  | DNew k name values => (mkDW (dheap w ++ [new_node k name values]) (dlook w), Ok tt)
  | DAdd i => d_add_node w i
  | DEdge u v => d_add_edge w u v
  | DCpd i int a => d_on_node w i (fun n => set_cpd n int a)
  | DProb i x p pv => d_on_node w i (fun n => set_probability (dheap w) n x p pv)
  | DUtilities i int a => d_on_node w i (fun n => set_utilities n int a)
  | DUtility i u pv => d_on_node w i (fun n => set_utility (dheap w) n u pv)
  | DDecide i d => d_decide w i d
  | DMixed i => d_on_node w i fully_mixed
  end.

(** networks.py:320-321 [__init__]. *)
Definition dstart : dworld := mkDW [] [].

(** factor.py:417-420 and 389-391: the parents in parentOrder, each with the
    values of the parent object. *)
Definition append_parents (h : heap) (n : node) (d : dict (list string)) : res (dict (list string)) :=
  foldM (fun d p => let* vs := parent_values h n p in Ok (dset p vs d)) (nporder n) d.

(** factor.py:368-392 [from_utility_node]: TypeError for other nodes. *)
Definition utility_factor (h : heap) (n : node) : res factor :=
  match nkind n with
  | KUtility => let* d := append_parents h n [] in Ok (mkF (tarr (ncpd n)) (nporder n) d)
  | _ => Err TypeError
  end.

(** factor.py:394-421 [from_node] on a node object.  Base class and utility nodes
    have no [values]. *)
Definition node_factor (h : heap) (n : node) : res factor :=
  let* vs := values_attr n in
  let* d := append_parents h n [(nname n, vs)] in
  Ok (mkF (tarr (ncpd n)) (nname n :: nporder n) d).

(** Joint factors (pairs of a probability and a utility factor).
    factor.py:594-617, decision.py:28-67. *)
Definition jfactor := (factor * factor)%type.

(** factor.py:594-617 [joint_factor]. *)
Definition joint_factor (h : heap) (n : node) : res jfactor :=
  match nkind n with
  | KUtility =>
      let* u := utility_factor h n in
      let* p := unit_factor (vorder u) (fvals u) in Ok (p, u)
  | _ =>
      let* p := node_factor h n in
      let* u := zero_factor (vorder p) (fvals p) in Ok (p, u)
  end.

(** Iteration over a Python set of joint factors.  The tuples hash by the
    identities of their factors, so no two are equal, and the order depends on
    addresses: some permutation, which may differ each time ([k] counts the
    iterations).  decision.py:44, 91-98. *)
Class BagOrder := {
  bag : nat -> list jfactor -> list jfactor;
  bag_perm : forall k l, Permutation (bag k l) l
}.

Section VE.
Context {SO : SetOrder} {BO : BagOrder}.

(** decision.py:42-44 [_combine_two_factors]. *)
Definition combine_two (f1 f2 : jfactor) : res jfactor :=
  let* p := fmul (fst f1) (fst f2) in
  let* u := fadd (snd f1) (snd f2) in
  Ok (p, u).

(** decision.py:28-46 [_combine_factors]: [functools.reduce] of nothing raises
    TypeError. *)
Definition combine_factors (l : list jfactor) : res jfactor :=
  match l with
  | [] => Err TypeError
  | f :: l' => foldM combine_two l' f
  end.

(** decision.py:48-67 [_marginalize_joint_factor]. *)
Definition marginalize_joint (f : jfactor) (v : string) : res jfactor :=
  let* tmp := marginalize1 (fst f) v in
  let* pu := fmul (fst f) (snd f) in
  let* m := marginalize1 pu v in
  let* u := fdiv m tmp in
  Ok (tmp, u).

(** decision.py:69-102 [generalized_VE]; variables given as node objects count as
    their names (nodes.py:43-64). *)
Fixpoint eliminate (k : nat) (working : list jfactor) (vars : list string) : res (list jfactor) :=
  match vars with
  | [] => Ok working
  | v :: vars' =>
      let relevant := filter (fun f => mem v (vorder (fst f))) working in            (* 93 *)
      let* tmp := combine_factors (bag k relevant) in                                (* 94 *)
      let* m := marginalize_joint tmp v in                                           (* 95 *)
      eliminate (S k) (filter (fun f => negb (mem v (vorder (fst f)))) working ++ [m]) vars'   (* 97-98 *)
  end.

(** decision.py:69-102 [generalized_VE]. *)
Definition generalized_VE (factors : list jfactor) (vars : list string) : res jfactor :=
  let* l := eliminate 0 factors vars in
  combine_factors (bag (length vars) l).

(** decision.py:130-132, 159-161: the joint factors of all nodes. *)
Definition net_factors (w : dworld) : res (list jfactor) :=
  mapM (fun p => let* n := hget (dheap w) (snd p) in joint_factor (dheap w) n) (dlook w).

(** [isinstance(node, UtilityNode)].  decision.py:134, 155; factor.py:605. *)
Definition is_utility (n : node) : bool := match nkind n with KUtility => true | _ => false end.

(** The names of the non-utility nodes, in the order of node_lookup (decision.py:134). *)
Definition chance_names (w : dworld) : list string :=
  map (fun p => nname (deref (dheap w) (snd p)))
      (filter (fun p => negb (is_utility (deref (dheap w) (snd p)))) (dlook w)).

(** decision.py:124-127: set the given decisions, in the order of the dict. *)
Fixpoint decide_all (w : dworld) (ds : dict string) : dworld * res unit :=
  match ds with
  | [] => (w, Ok tt)
  | (v, d) :: ds' =>
      match dget v (dlook w) with
      | None => (w, Err KeyError)
      | Some i => match d_decide w i d with
                  | (w', Ok _) => decide_all w' ds'
                  | r => r
                  end
      end
  end.

(** decision.py:104-135 [expected_utility]; the decisions stay set. *)
Definition expected_utility (w : dworld) (ds : dict string) : dworld * res ndarray :=
  match decide_all w ds with
  | (w', Err e) => (w', Err e)
  | (w', Ok _) =>
      (w', let* fs := net_factors w' in
           let* r := generalized_VE fs (chance_names w') in
           Ok (pot (snd r)))
  end.

(** [eu > maxVal] in an [if]: arrays of several elements have no truth value, and
    shapes that do not broadcast cannot be compared.  decision.py:170. *)
Definition truth_gt (a b : ndarray) : res bool :=
  match data a, data b with
  | [x], [y] => Ok (qltb y x)
  | _, _ => Err ValueError
  end.

(** decision.py:166-172: the first value with the greatest utility. *)
Fixpoint best (f : factor) (v : string) (ds : list string) (acc : option (ndarray * string))
  : res (option (ndarray * string)) :=
  match ds with
  | [] => Ok acc
  | d :: ds' =>
      let* eu := get_potential f [(v, [d])] in
      match acc with
      | None => best f v ds' (Some (eu, d))
      | Some (m, x) => let* gt := truth_gt eu m in best f v ds' (Some (if gt then (eu, d) else (m, x)))
      end
  end.

(** decision.py:138-174 [_optimize_locally]; a decision without values gives
    [None], which is not a name: NonFinite stands for it. *)
Definition optimize_locally (w : dworld) (v : string) : res string :=
  let* i := dget_err KeyError v (dlook w) in
  let* n := hget (dheap w) i in
  let* fs := net_factors w in
  let* r := generalized_VE fs
    (filter (fun u => negb (String.eqb u v) && negb (dmem u (nparents n)))
            (map fst (filter (fun p => negb (is_utility (deref (dheap w) (snd p)))) (dlook w)))) in  (* 153-156 *)
  let* vs := values_attr n in
  let* b := best (snd r) v vs None in
  match b with Some (_, d) => Ok d | None => Err NonFinite end.

(** decision.py:204-209: fully mixed rules, or the fixed decisions. *)
Fixpoint prepare (w : dworld) (order : list string) (fixed : dict string) : dworld * res unit :=
  match order with
  | [] => (w, Ok tt)
  | v :: order' =>
      match dget v (dlook w) with
      | None => (w, Err KeyError)
      | Some i =>
          match (match dget v fixed with
                 | None => d_on_node w i fully_mixed
                 | Some d => d_decide w i d
                 end) with
          | (w', Ok _) => prepare w' order' fixed
          | r => r
          end
      end
  end.

(** decision.py:177-216 [get_optimal_decisions]. *)
Definition optimal_decisions (w : dworld) (order : list string) (fixed : dict string)
  : dworld * res (dict string) :=
  match prepare w order fixed with
  | (w', Err e) => (w', Err e)
  | (w', Ok _) =>
      (w', foldM (fun sol v => let* d := optimize_locally w' v in Ok (dset v d sol)) order [])
  end.
End VE.
