(** Variable elimination with a record of the tables it makes
    (primo2/inference/exact.py, class VariableElimination).  Erasing the record
    gives the functions of Exact.v (C66_same_program).  Simplified: arrays that
    the factor operations use internally are not recorded. *)
From Verif Require Import Base NDArray Factor Exact.

(** A table made from a node or from evidence (exact.py:68, 71, 129, 145), a product
    (exact.py:68, 71, 139, 145, 154, 158, 162), a table and what is left of it when
    [v] is summed out (exact.py:77, 151). *)
Inductive event :=
| Given (f : factor)
| Times (f : factor)
| Summed (v : string) (f g : factor).

(** A computation with its record (exact.py:33-166); an exception keeps the record so far. *)
Definition logged (A : Type) : Type := list event * res A.

(** One statement after the other (exact.py:33-166). *)
Definition lbind {A B} (m : logged A) (k : A -> logged B) : logged B :=
  match snd m with
  | Ok a => (fst m ++ fst (k a), snd (k a))
  | Err e => (fst m, Err e)
  end.

(** A step that makes no table, e.g. exact.py:144. *)
Definition quiet {A} (r : res A) : logged A := ([], r).

Notation "'let+' x := e 'in' k" := (lbind e (fun x => k))
  (at level 200, x pattern, e at level 100, k at level 200, right associativity).

(** A loop, e.g. exact.py:67-71. *)
Fixpoint lfold {A B} (f : B -> A -> logged B) (l : list A) (b : B) : logged B :=
  match l with
  | [] => quiet (Ok b)
  | x :: l' => let+ b' := f b x in lfold f l' b'
  end.

(** A new table, e.g. exact.py:129. *)
Definition given (r : res factor) : logged factor :=
  match r with Ok f => ([Given f], Ok f) | Err e => ([], Err e) end.

(** [f * g], e.g. exact.py:139. *)
Definition times {SO : SetOrder} (f g : factor) : logged factor :=
  match fmul f g with Ok h => ([Times h], Ok h) | Err e => ([], Err e) end.

(** [f.marginalize(v)], exact.py:77 and 151. *)
Definition sum_out {SO : SetOrder} (f : factor) (v : string) : logged factor :=
  match marginalize1 f v with Ok g => ([Summed v f g], Ok g) | Err e => ([], Err e) end.

(** exact.py:67-71, one variable. *)
Definition naive_step_log {SO : SetOrder} (b : bn) (ev : evidence) (f : factor) (v : string) : logged factor :=
  let+ n := quiet (get_node b v) in
  let+ g := given (Ok (from_node n)) in
  let+ f1 := times f g in
  match dget v ev with
  | Some e => let+ ef := given (as_evidence v (dn_values n) e None) in times f1 ef
  | None => quiet (Ok f1)
  end.

(** exact.py:33-82 [naive_marginals]. *)
Definition naive_log {SO : SetOrder} (b : bn) (variables : list string) (ev : evidence) : logged factor :=
  let order := bnames b in
  let+ f := lfold (naive_step_log b ev) order (trivial 1%Qc) in
  let+ g := lfold sum_out (filter (fun v => negb (mem v variables)) order) f in
  quiet (Ok (normalize g)).

(** exact.py:137-140 / 153-155. *)
Fixpoint place_first_log {SO : SetOrder} (f : factor) (order : list string) (bs : list factor)
  : option (logged (list factor)) :=
  match order, bs with
  | v :: order', b :: bs' =>
      if fcontains v f then Some (let+ b' := times b f in quiet (Ok (b' :: bs')))
      else match place_first_log f order' bs' with
           | Some r => Some (let+ l := r in quiet (Ok (b :: l)))
           | None => None
           end
  | _, _ => None
  end.

(** exact.py:157-158. *)
Fixpoint mul_last_log {SO : SetOrder} (f : factor) (bs : list factor) : logged (list factor) :=
  match bs with
  | [] => quiet (Err IndexError)
  | [b] => let+ b' := times b f in quiet (Ok [b'])
  | b :: bs' => let+ l := mul_last_log f bs' in quiet (Ok (b :: l))
  end.

(** exact.py:136-140. *)
Definition place_factor_log {SO : SetOrder} (order : list string) (bs : list factor) (f : factor)
  : logged (list factor) :=
  match place_first_log f order bs with Some r => r | None => quiet (Ok bs) end.

(** exact.py:143-145. *)
Fixpoint mul_at_log {SO : SetOrder} (i : nat) (f : factor) (bs : list factor) : logged (list factor) :=
  match i, bs with
  | _, [] => quiet (Err IndexError)
  | O, b :: bs' => let+ b' := times b f in quiet (Ok (b' :: bs'))
  | S j, b :: bs' => let+ l := mul_at_log j f bs' in quiet (Ok (b :: l))
  end.

(** exact.py:143-145, one evidence variable. *)
Definition add_evidence_log {SO : SetOrder} (b : bn) (order : list string) (bs : list factor)
    (p : string * evid) : logged (list factor) :=
  let+ i := quiet (py_index (fst p) order) in
  let+ n := quiet (get_node b (fst p)) in
  let+ ef := given (as_evidence (fst p) (dn_values n) (snd p) None) in
  mul_at_log i ef bs.

(** exact.py:149-158, as [process]. *)
Fixpoint process_log {SO : SetOrder} (k : nat) (order : list string) (bs : list factor)
  : logged (list string * list factor) :=
  match k, order, bs with
  | S k', v :: order', b :: bs' =>
      let+ tmp := sum_out b v in
      let+ bs'' := match place_first_log tmp order' bs' with
                   | Some r => r
                   | None => mul_last_log tmp bs'
                   end in
      process_log k' order' bs''
  | _, _, _ => quiet (Ok (order, bs))
  end.

(** exact.py:161-162. *)
Fixpoint collect_log {SO : SetOrder} (acc : factor) (bs : list factor) : logged factor :=
  match bs with
  | [] => quiet (Ok acc)
  | b :: bs' => let+ acc' := times b acc in collect_log acc' bs'
  end.

(** exact.py:161-162, as [mul_pair]. *)
Definition mul_pair_log {SO : SetOrder} (bs : list factor) (p : nat * nat) : logged (list factor) :=
  let+ g := times (nth (fst p) bs (trivial 1%Qc)) (nth (snd p) bs (trivial 1%Qc)) in
  quiet (Ok (list_set (fst p) g bs)).

(** exact.py:160-162, as [collect_neg]. *)
Definition collect_neg_log {SO : SetOrder} (k : nat) (bs : list factor) : logged factor :=
  let m := length bs in
  if Nat.ltb m k then quiet (Err IndexError) else
  let neg := map (fun i => (Nat.modulo (m - k + i + 1) m, m - k + i)) (seq 0 k) in
  let pos := map (fun i => (S i, i)) (seq 0 (m - 1)) in
  let+ bs' := lfold mul_pair_log (neg ++ pos) bs in
  quiet (Ok (last bs' (trivial 1%Qc))).

(** exact.py:129-166. *)
Definition bucket_core_log {SO : SetOrder} (b : bn) (variables : list string) (ev : evidence)
    (order : list string) : logged factor :=
  let+ nodes := quiet (mapM (get_node b) order) in
  let factors := map from_node nodes in
  let+ _ := (map Given factors, Ok tt) in
  let buckets := repeat (trivial 1%Qc) (S (length order)) in
  let+ bs1 := lfold (place_factor_log order) factors buckets in
  let+ bs2 := lfold (add_evidence_log b order) ev bs1 in
  let+ (o, bs3) := process_log (length order - length variables) order bs2 in
  let+ r := (if Nat.leb (length variables) (length order) then
               match bs3 with
               | [] => quiet (Err IndexError)
               | f :: bs4 => collect_log f bs4
               end
             else collect_neg_log (length variables - length order) bs3) in
  quiet (Ok (normalize r)).

(** exact.py:86-166 [bucket_marginals]. *)
Definition bucket_log {SO : SetOrder} (b : bn) (variables : list string) (ev : evidence)
    (order : list string) : logged factor :=
  match move_to_end variables order with
  | (order', Some e) => quiet (Err e)
  | (order', None) => bucket_core_log b variables ev order'
  end.
