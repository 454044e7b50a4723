(** Networks as seen by the inference code, and variable elimination
    (primo2/inference/exact.py, class VariableElimination). *)
From Verif Require Import Base NDArray Factor.

(** The attributes of a DiscreteNode (nodes.py:85-90) that inference reads:
    [dn_parents] is parentOrder, each name with the value list of the object
    [self.parents[name]]; [dn_pdict] lists the keys of the dict [parents] in
    insertion order.  Network.v ([view]) computes these from the object heap. *)
Record dnode := mkN {
  dn_name : string;
  dn_values : list string;
  dn_parents : list (string * list string);
  dn_pdict : list string;
  dn_cpd : ndarray
}.

(** A BayesianNetwork (networks.py:30-34): [bnodes] is node_lookup in insertion
    order, [border] the node order of the networkx graph and [bedges] its edges
    in insertion order.  Both orders are equal for all networks reached within the
    contract (C56_one_order), so [bnodes] also stands for [get_all_nodes]
    (networks.py:128-129). *)
Record bn := mkBN {
  bnodes : list dnode;
  border : list string;
  bedges : list (string * string)
}.

(** networks.py:131-132 [get_all_node_names]. *)
Definition bnames (b : bn) : list string := map dn_name (bnodes b).

(** networks.py:68-73 [get_node]. *)
Definition get_node (b : bn) (v : string) : res dnode :=
  match find (fun n => String.eqb v (dn_name n)) (bnodes b) with
  | Some n => Ok n
  | None => Err PlainException
  end.

(** factor.py:394-421 [from_node]. *)
Definition from_node (n : dnode) : factor :=
  mkF (dn_cpd n) (dn_name n :: map fst (dn_parents n))
      (fold_left (fun d p => dset (fst p) (snd p) d) (dn_parents n)
                 [(dn_name n, dn_values n)]).

(** The evidence argument: a dict from names to values or arrays.  exact.py:33, 86, 293. *)
Definition evidence := dict evid.

(** exact.py:33-82 [naive_marginals]. *)
Definition naive_step {SO : SetOrder} (b : bn) (ev : evidence) (f : factor) (v : string) : res factor :=
  let* n := get_node b v in
  let* f1 := fmul f (from_node n) in                              (* 68 *)
  match dget v ev with
  | Some e => let* ef := as_evidence v (dn_values n) e None in
              fmul f1 ef                                          (* 70-71 *)
  | None => Ok f1
  end.

(** exact.py:33-82 [naive_marginals]. *)
Definition naive_marginals {SO : SetOrder} (b : bn) (variables : list string) (ev : evidence)
  : res factor :=
  let order := bnames b in
  let* f := foldM (naive_step b ev) order (trivial 1%Qc) in
  let* g := foldM marginalize1 (filter (fun v => negb (mem v variables)) order) f in  (* 75-77 *)
  Ok (normalize g).

(** exact.py:124-127: move the query variables to the end of [order].  The list
    belongs to the caller and is modified in place; an unknown variable leaves
    it half modified. *)
Fixpoint move_to_end (variables order : list string) : list string * option exc :=
  match variables with
  | [] => (order, None)
  | v :: vs => if mem v order then move_to_end vs (remove1 v order ++ [v])
               else (order, Some ValueError)
  end.

(** exact.py:137-140 / 153-155: multiply [f] into the first bucket whose
    variable it contains. *)
Fixpoint place_first {SO : SetOrder} (f : factor) (order : list string) (bs : list factor)
  : option (res (list factor)) :=
  match order, bs with
  | v :: order', b :: bs' =>
      if fcontains v f then Some (let* b' := fmul b f in Ok (b' :: bs'))
      else match place_first f order' bs' with
           | Some r => Some (let* l := r in Ok (b :: l))
           | None => None
           end
  | _, _ => None
  end.

(** exact.py:157: multiply into the last bucket. *)
Fixpoint mul_last {SO : SetOrder} (f : factor) (bs : list factor) : res (list factor) :=
  match bs with
  | [] => Err IndexError
  | [b] => let* b' := fmul b f in Ok [b']
  | b :: bs' => let* l := mul_last f bs' in Ok (b :: l)
  end.

(** exact.py:136-140: a factor without any listed variable is dropped. *)
Definition place_factor {SO : SetOrder} (order : list string) (bs : list factor) (f : factor)
  : res (list factor) :=
  match place_first f order bs with Some r => r | None => Ok bs end.

(** exact.py:143-145: multiply an evidence factor into its variable's bucket. *)
Fixpoint mul_at {SO : SetOrder} (i : nat) (f : factor) (bs : list factor) : res (list factor) :=
  match i, bs with
  | _, [] => Err IndexError
  | O, b :: bs' => let* b' := fmul b f in Ok (b' :: bs')
  | S j, b :: bs' => let* l := mul_at j f bs' in Ok (b :: l)
  end.

(** exact.py:143-145, one evidence variable. *)
Definition add_evidence {SO : SetOrder} (b : bn) (order : list string) (bs : list factor)
    (p : string * evid) : res (list factor) :=
  let* i := py_index (fst p) order in
  let* n := get_node b (fst p) in
  let* ef := as_evidence (fst p) (dn_values n) (snd p) None in
  mul_at i ef bs.

(** exact.py:149-158, one iteration per bucket.  Buckets with an index below the
    current one are never read again, so the recursion drops them. *)
Fixpoint process {SO : SetOrder} (k : nat) (order : list string) (bs : list factor)
  : res (list string * list factor) :=
  match k, order, bs with
  | S k', v :: order', b :: bs' =>
      let* tmp := marginalize1 b v in
      let* bs'' := match place_first tmp order' bs' with
                   | Some r => r
                   | None => mul_last tmp bs'
                   end in
      process k' order' bs''
  | _, _, _ => Ok (order, bs)
  end.

(** exact.py:161-162 for [bucketUntil >= 0]: multiply the buckets left to right;
    the value of [buckets[-1]] afterwards. *)
Fixpoint collect {SO : SetOrder} (acc : factor) (bs : list factor) : res factor :=
  match bs with
  | [] => Ok acc
  | b :: bs' => let* acc' := fmul b acc in collect acc' bs'
  end.

(** exact.py:161-162 for [bucketUntil = -k < 0] (more query entries than
    variables): negative indices count from the end of [buckets]. *)
Definition mul_pair {SO : SetOrder} (bs : list factor) (p : nat * nat) : res (list factor) :=
  let* g := fmul (nth (fst p) bs (trivial 1%Qc)) (nth (snd p) bs (trivial 1%Qc)) in
  Ok (list_set (fst p) g bs).

(** exact.py:160-162 with negative indices (first [neg], then the others). *)
Definition collect_neg {SO : SetOrder} (k : nat) (bs : list factor) : res factor :=
  let m := length bs in
  if Nat.ltb m k then Err IndexError else
  let neg := map (fun i => (Nat.modulo (m - k + i + 1) m, m - k + i)) (seq 0 k) in
  let pos := map (fun i => (S i, i)) (seq 0 (m - 1)) in
  let* bs' := foldM mul_pair (neg ++ pos) bs in
  Ok (last bs' (trivial 1%Qc)).

(** exact.py:86-166 [bucket_marginals] for a non-empty [order] (Order.v has the
    default).  Returns the caller's order list as the call leaves it. *)
Definition bucket_core {SO : SetOrder} (b : bn) (variables : list string) (ev : evidence)
    (order : list string) : res factor :=
  let* nodes := mapM (get_node b) order in
  let factors := map from_node nodes in                            (* 129 *)
  let buckets := repeat (trivial 1%Qc) (S (length order)) in       (* 133 *)
  let* bs1 := foldM (place_factor order) factors buckets in        (* 136-140 *)
  let* bs2 := foldM (add_evidence b order) ev bs1 in               (* 143-145 *)
  let* (o, bs3) := process (length order - length variables) order bs2 in
  let* r := (if Nat.leb (length variables) (length order) then
               match bs3 with
               | [] => Err IndexError
               | f :: bs4 => collect f bs4
               end
             else collect_neg (length variables - length order) bs3) in
  Ok (normalize r).                                                (* 165 *)

(** exact.py:86-166 [bucket_marginals]; the first component is the caller's list [order] afterwards. *)
Definition bucket_marginals {SO : SetOrder} (b : bn) (variables : list string) (ev : evidence)
    (order : list string) : list string * res factor :=
  match move_to_end variables order with
  | (order', Some e) => (order', Err e)
  | (order', None) => (order', bucket_core b variables ev order')
  end.
