(** The class FactorTree (exact.py:168-451) in rounded arithmetic.  The algorithms of
    JoinTree.v with the operations on factors as arguments; [tree_by_exact]
    (RoundedTreeProof.v) shows that with the exact operations they are the functions of
    JoinTree.v.  Evidence is set with softPosteriors=False. *)
From Verif Require Import Base NDArray Factor Exact Order JoinTree Rounded.

(** factor.py:257-280 [invert] with rounded quotients; zeros as in Factor.v. *)
Definition rinvert {RD : Rounding} (f : factor) : res factor :=
  match vorder f with
  | [] => if existsb (fun x => qeqb x 0%Qc) (data (pot f)) then Err FloatingPointError
          else Ok (mkF (amap (fun x => rnd (Qcinv x)) (pot f)) (vorder f) (fvals f))
  | _ => Ok (mkF (amap (fun x => if qeqb x 0%Qc then 0%Qc else rnd (Qcinv x)) (pot f))
                 (vorder f) (fvals f))
  end.

Section Algorithms.
Context {SO : SetOrder}.
Variables (mul : factor -> factor -> res factor) (marg : factor -> string -> res factor)
  (inv : factor -> res factor) (norm : factor -> factor).

(** factor.py:138-159 [__truediv__]. *)
Definition div_by (self other : factor) : res factor :=
  if subset (dkeys (fvals other)) (dkeys (fvals self)) then let* i := inv other in mul self i
  else Err ValueError.

(** factor.py:513-541 [marginalize], all variables in turn. *)
Definition marginalize_by (f : factor) (vs : list string) : res factor := foldM marg vs f.

(** exact.py:259-264 and 285-289: multiply each factor into the first node that covers it. *)
Fixpoint assign_factor_by (f : factor) (l : dict clique) : res (dict clique) :=
  match l with
  | [] => Ok []
  | (k, c) :: l' => if subset (dkeys (fvals f)) (cvars c)
                    then let* g := mul (cfac c) f in Ok ((k, mkC (cvars c) g) :: l')
                    else let* r := assign_factor_by f l' in Ok ((k, c) :: r)
  end.

(** exact.py:259-264 and 285-289, all factors in turn. *)
Definition assign_factors_by (fs : list factor) (t : jtree) : res jtree :=
  let* ns := foldM (fun l f => assign_factor_by f l) fs (tnodes t) in
  Ok (mkT ns (tadj t) (tedges t) (tvalid t)).

(** exact.py:175-265 [create_jointree]. *)
Definition create_jointree_by (b : bn) (order : option (list string)) : res jtree :=
  let* o := order_or_default b order in
  let* cs := cluster_seq o (moral_graph b) in
  let* cs' := prune cs in
  assign_factors_by (map from_node (bnodes b)) (build_tree cs').

(** exact.py:268-290 [reset_factors]. *)
Definition reset_factors_by (b : bn) (t : jtree) : jtree * res unit :=
  match assign_factors_by (map from_node (bnodes b)) (clear_factors t) with
  | Ok t' => (set_valid false t', Ok tt)
  | Err e => (clear_factors t, Err e)
  end.

(** exact.py:418-421 and 445-447: one message from [cur] to [to]. *)
Definition send_by (cur to : string) (t : jtree) : jtree * res unit :=
  let m :=
    let* c := dget_err KeyError cur (tnodes t) in
    let* s := match eget cur to (tedges t) with Some s => Ok s | None => Err KeyError end in
    let* new := marginalize_by (cfac c) (sdiff (cvars c) (svars s)) in
    let* d := dget_err KeyError to (tnodes t) in
    let* q := div_by new (sfac s) in
    let* f := mul (cfac d) q in
    Ok (new, f) in
  match m with
  | Ok (new, f) => (set_sfac cur to new (set_cfac to f t), Ok tt)
  | Err e => (t, Err e)
  end.

(** exact.py:396-423 [pull_messages]. *)
Fixpoint pull_by (fuel : nat) (cur : string) (parent : option string) (t : jtree) : jtree * res unit :=
  match fuel with
  | O => (t, Err RecursionError)
  | S n =>
      match each (fun k => pull_by n k (Some cur))
                 (filter (fun k => negb (is_parent parent k)) (neighbours (tadj t) cur)) t with
      | (t', Err e) => (t', Err e)
      | (t', Ok _) => match parent with
                      | None | Some "" => (t', Ok tt)
                      | Some p => send_by cur p t'
                      end
      end
  end.

(** exact.py:425-449 [push_messages]. *)
Fixpoint push_by (fuel : nat) (cur : string) (parent : option string) (t : jtree) : jtree * res unit :=
  match fuel with
  | O => (t, Err RecursionError)
  | S n =>
      each (fun k t => match send_by cur k t with
                       | (t', Ok _) => push_by n k (Some cur) t'
                       | (t', Err e) => (t', Err e)
                       end)
           (filter (fun k => negb (is_parent parent k)) (neighbours (tadj t) cur)) t
  end.

(** exact.py:382-394 [calculate_messages]. *)
Definition calculate_messages_by (t : jtree) : jtree * res unit :=
  match dkeys (tnodes t) with
  | [] => (t, Ok tt)
  | root :: _ =>
      let fuel := S (length (tnodes t)) in
      let r := match pull_by fuel root None t with
               | (t1, Ok _) => match push_by fuel root None t1 with
                               | (t2, Ok _) => (set_valid true t2, Ok tt)
                               | (t2, Err e) => (t2, Err e)
                               end
               | (t1, Err e) => (t1, Err e)
               end in
      match r with
      | (t', Err IndexError) => (t', Ok tt)
      | x => x
      end
  end.

(** exact.py:339-376 [marginals]. *)
Definition tmarginals_by (t : jtree) (variables : list string) : jtree * res factor :=
  let (t', r) := if tvalid t then (t, Ok tt) else calculate_messages_by t in
  match r with
  | Err e => (t', Err e)
  | Ok _ =>
      (t', match find (fun p => subset variables (cvars (snd p))) (tnodes t') with
           | Some (_, c) => let* f := marginalize_by (cfac c) (sdiff (cvars c) variables) in
                            Ok (norm f)
           | None => Err ValueError
           end)
  end.

(** exact.py:333-336: multiply an evidence factor into the first node with its variable. *)
Fixpoint assign_evidence_by (v : string) (f : factor) (l : dict clique) : res (dict clique) :=
  match l with
  | [] => Ok []
  | (k, c) :: l' => if mem v (cvars c)
                    then let* g := mul (cfac c) f in Ok ((k, mkC (cvars c) g) :: l')
                    else let* r := assign_evidence_by v f l' in Ok ((k, c) :: r)
  end.

(** exact.py:328-336, one evidence variable. *)
Definition add_tree_evidence_by (b : bn) (p : string * evid) (t : jtree) : jtree * res unit :=
  let m := let* n := get_node b (fst p) in
           let* ef := as_evidence (fst p) (dn_values n) (snd p) None in
           assign_evidence_by (fst p) ef (tnodes t) in
  match m with
  | Ok ns => (mkT ns (tadj t) (tedges t) (tvalid t), Ok tt)
  | Err e => (t, Err e)
  end.

(** exact.py:293-337 [set_evidence] with softPosteriors=False. *)
Definition set_evidence_by (b : bn) (ev : evidence) (t : jtree) : jtree * res unit :=
  match reset_factors_by b t with
  | (t1, Err e) => (t1, Err e)
  | (t1, Ok _) => match each (add_tree_evidence_by b) ev t1 with
                  | (t2, Ok _) => calculate_messages_by t2
                  | (t2, Err e) => (t2, Err e)
                  end
  end.
End Algorithms.

Section Rounded.
Context {RD : Rounding} {AD : Adding} {SO : SetOrder}.
(** exact.py:175-265 in rounded arithmetic. *)
Definition rounded_jointree : bn -> option (list string) -> res jtree := create_jointree_by rmul.
(** exact.py:268-290 in rounded arithmetic. *)
Definition rounded_reset : bn -> jtree -> jtree * res unit := reset_factors_by rmul.
(** exact.py:293-337 in rounded arithmetic. *)
Definition rounded_evidence : bn -> evidence -> jtree -> jtree * res unit := set_evidence_by rmul rmarg rinvert.
(** exact.py:382-394 in rounded arithmetic. *)
Definition rounded_messages : jtree -> jtree * res unit := calculate_messages_by rmul rmarg rinvert.
(** exact.py:339-376 in rounded arithmetic. *)
Definition rounded_tree : jtree -> list string -> jtree * res factor := tmarginals_by rmul rmarg rinvert rnormalize.
End Rounded.
