(** Variable elimination in rounded arithmetic.  Exact.v and Factor.v compute with
    exact numbers; here the same functions compute with numbers that are rounded
    after every operation, and add in any order (numpy adds pairwise, in blocks or one
    after the other).  Overflow and underflow are not modelled. *)
From Verif Require Import Base NDArray Factor Exact Order Sampling.

(** Rounding of the result of an operation: monotone, exact on numbers that are
    representable, relative error bounded by [ulp].  IEEE 754 doubles, as used by numpy
    arrays (factor.py:91-96, 134, 189-194, 234, 321, 537, 591; nodes.py:138). *)
Class Rounding := {
  rnd : Qc -> Qc;
  ulp : Qc;
  ulp_nonneg : (0 <= ulp)%Qc;
  rnd_mono : forall x y, (0 <= x -> x <= y -> rnd x <= rnd y)%Qc;
  rnd_idem : forall x, (0 <= x)%Qc -> rnd (rnd x) = rnd x;
  rnd_zero : rnd 0%Qc = 0%Qc;
  rnd_below : forall x, (0 <= x -> rnd x <= (1 + ulp) * x)%Qc;
  rnd_above : forall x, (0 <= x -> x <= (1 + ulp) * rnd x)%Qc
}.

(** The way a sum of [n] numbers is associated (factor.py:321, 537, 589); the second
    argument of [plan] tells the sums of one table apart. *)
Inductive stree := One (i : nat) | Both (l r : stree).
(** The positions a sum reads (factor.py:321, 537, 589). *)
Fixpoint leaves (t : stree) : list nat :=
  match t with One i => [i] | Both l r => leaves l ++ leaves r end.
(** Every number is added once (factor.py:321, 537, 589). *)
Class Adding := {
  plan : nat -> list nat -> stree;
  plan_ok : forall n tag, 0 < n -> Permutation (leaves (plan n tag)) (seq 0 n)
}.

Section Rounded.
Context {RD : Rounding} {AD : Adding} {SO : SetOrder}.

(** Evaluation of a sum (factor.py:321, 537, 589). *)
Fixpoint radd_tree (t : stree) (l : list Qc) : Qc :=
  match t with One i => nth i l 0%Qc | Both a b => rnd (radd_tree a l + radd_tree b l)%Qc end.

(** [np.sum] of a list of numbers (factor.py:321, 537, 589). *)
Definition rsum (tag : list nat) (l : list Qc) : Qc :=
  match l with [] => 0%Qc | _ => radd_tree (plan (length l) tag) l end.

(** [np.sum(a, axis=k)], factor.py:537. *)
Definition rsum_axis (k : nat) (a : ndarray) : ndarray :=
  tabulate (list_del k (shape a))
    (fun idx => rsum (k :: idx) (map (fun i => aget a (list_insert k i idx)) (seq 0 (nth k (shape a) 0)))).

(** factor.py:161-236 [__mul__]. *)
Definition rmul : factor -> factor -> res factor := fcombine (fun x y => rnd (x * y)%Qc).

(** factor.py:513-541 [marginalize], one variable. *)
Definition rmarg (f : factor) (v : string) : res factor :=
  let* k := py_index v (vorder f) in
  if dmem v (fvals f) then
    Ok (mkF (rsum_axis k (pot f)) (remove1 v (vorder f)) (ddel v (fvals f)))
  else Err KeyError.

(** factor.py:584-591 [normalize]. *)
Definition rnormalize (f : factor) : factor :=
  let s := rsum [] (data (pot f)) in
  if qltb 0%Qc s then mkF (amap (fun x => rnd (x / s)%Qc) (pot f)) (vorder f) (fvals f)
  else f.
End Rounded.

(** The algorithms of exact.py:33-166 with the operations on factors as arguments;
    [naive_by_exact] and [bucket_by_exact] (RoundedProof.v) show that with the exact
    operations they are the functions of Exact.v. *)
Section Algorithms.
Variables (mul : factor -> factor -> res factor) (marg : factor -> string -> res factor) (norm : factor -> factor).

(** exact.py:64-71. *)
Definition naive_step_by (b : bn) (ev : evidence) (f : factor) (v : string) : res factor :=
  let* n := get_node b v in
  let* f1 := mul f (from_node n) in
  match dget v ev with
  | Some e => let* ef := as_evidence v (dn_values n) e None in mul f1 ef
  | None => Ok f1
  end.

(** exact.py:33-82 [naive_marginals]. *)
Definition naive_by (b : bn) (variables : list string) (ev : evidence) : res factor :=
  let order := bnames b in
  let* f := foldM (naive_step_by b ev) order (trivial 1%Qc) in
  let* g := foldM marg (filter (fun v => negb (mem v variables)) order) f in
  Ok (norm g).

(** exact.py:137-140 / 153-155. *)
Fixpoint place_first_by (f : factor) (order : list string) (bs : list factor) : option (res (list factor)) :=
  match order, bs with
  | v :: order', b :: bs' =>
      if fcontains v f then Some (let* b' := mul b f in Ok (b' :: bs'))
      else match place_first_by f order' bs' with
           | Some r => Some (let* l := r in Ok (b :: l))
           | None => None
           end
  | _, _ => None
  end.

(** exact.py:157. *)
Fixpoint mul_last_by (f : factor) (bs : list factor) : res (list factor) :=
  match bs with
  | [] => Err IndexError
  | [b] => let* b' := mul b f in Ok [b']
  | b :: bs' => let* l := mul_last_by f bs' in Ok (b :: l)
  end.

(** exact.py:136-140. *)
Definition place_factor_by (order : list string) (bs : list factor) (f : factor) : res (list factor) :=
  match place_first_by f order bs with Some r => r | None => Ok bs end.

(** exact.py:143-145. *)
Fixpoint mul_at_by (i : nat) (f : factor) (bs : list factor) : res (list factor) :=
  match i, bs with
  | _, [] => Err IndexError
  | O, b :: bs' => let* b' := mul b f in Ok (b' :: bs')
  | S j, b :: bs' => let* l := mul_at_by j f bs' in Ok (b :: l)
  end.

(** exact.py:143-145, one evidence variable. *)
Definition add_evidence_by (b : bn) (order : list string) (bs : list factor) (p : string * evid) : res (list factor) :=
  let* i := py_index (fst p) order in
  let* n := get_node b (fst p) in
  let* ef := as_evidence (fst p) (dn_values n) (snd p) None in
  mul_at_by i ef bs.

(** exact.py:149-158. *)
Fixpoint process_by (k : nat) (order : list string) (bs : list factor) : res (list string * list factor) :=
  match k, order, bs with
  | S k', v :: order', b :: bs' =>
      let* tmp := marg b v in
      let* bs'' := match place_first_by tmp order' bs' with
                   | Some r => r
                   | None => mul_last_by tmp bs'
                   end in
      process_by k' order' bs''
  | _, _, _ => Ok (order, bs)
  end.

(** exact.py:161-162. *)
Fixpoint collect_by (acc : factor) (bs : list factor) : res factor :=
  match bs with
  | [] => Ok acc
  | b :: bs' => let* acc' := mul b acc in collect_by acc' bs'
  end.

(** exact.py:86-166 [bucket_marginals] after lines 124-127; queries with more entries
    than the order has are left out here (Exact.v has them). *)
Definition bucket_core_by (b : bn) (variables : list string) (ev : evidence) (order : list string) : res factor :=
  let* nodes := mapM (get_node b) order in
  let factors := map from_node nodes in
  let buckets := repeat (trivial 1%Qc) (S (length order)) in
  let* bs1 := foldM (place_factor_by order) factors buckets in
  let* bs2 := foldM (add_evidence_by b order) ev bs1 in
  let* (o, bs3) := process_by (length order - length variables) order bs2 in
  let* r := match bs3 with [] => Err IndexError | f :: bs4 => collect_by f bs4 end in
  Ok (norm r).

(** exact.py:86-166 [bucket_marginals], default order included (exact.py:119-122). *)
Definition bucket_by (b : bn) (variables : list string) (ev : evidence) (order : option (list string)) : res factor :=
  let* o := order_or_default b order in
  match move_to_end variables o with
  | (_, Some e) => Err e
  | (o', None) => bucket_core_by b variables ev o'
  end.
End Algorithms.

(** exact.py:33-82 and 86-166 in rounded arithmetic. *)
Definition rounded_naive {RD : Rounding} {AD : Adding} {SO : SetOrder} := naive_by rmul rmarg rnormalize.
(** exact.py:86-166 in rounded arithmetic. *)
Definition rounded_bucket {RD : Rounding} {AD : Adding} {SO : SetOrder} := bucket_by rmul rmarg rnormalize.

(** nodes.py:317-349 [get_markov_prob] in rounded arithmetic. *)
Definition rmarkov {RD : Rounding} (n : dnode) (x : string) (children : list dnode) (st : dict string) (forward : bool) : res Qc :=
  let* p := sp n x st in
  if forward then Ok p
  else foldM (fun p c => let* y := dget_err KeyError (dn_name c) st in
                         let* q := sp c y st in Ok (rnd (p * q))%Qc) children p.

(** nodes.py:384-385, 387: adding one weight after the other.  The weights are numpy
    floats, for which Python's [sum] has no special treatment (it has one for Python's
    own floats since 3.12), so that [sum(weights)] adds as the loop does. *)
Definition rtotal {RD : Rounding} (ws : list Qc) : Qc := fold_left (fun s w => rnd (s + w)%Qc) ws 0%Qc.

(** nodes.py:385-390, the roulette wheel. *)
Fixpoint rroulette {RD : Rounding} (values : list string) (ws : list Qc) (s r : Qc) : option string :=
  match values, ws with
  | x :: values', w :: ws' => let s' := rnd (s + w)%Qc in if qleb r s' then Some x else rroulette values' ws' s' r
  | _, _ => None
  end.

(** nodes.py:383-390: the whole draw for the random number [u]. *)
Definition rdraw {RD : Rounding} (values : list string) (ws : list Qc) (u : Qc) : option string :=
  rroulette values ws 0%Qc (rnd (u * rtotal ws)%Qc).

(** nodes.py:351-390 [sample_value] in rounded arithmetic; the value None of Python
    is [Ok None] here. *)
Definition rsample_value {RD : Rounding} (g : rng) (k : nat) (n : dnode) (st : dict string) (children : list dnode) (forward : bool)
  : res (option string) :=
  let* ws := mapM (fun x => rmarkov n x children (dset (dn_name n) x st) forward) (dn_values n) in
  Ok (rdraw (dn_values n) ws (unif g k)).
