(** Model of primo2/inference/factor.py with Python's references: which objects a
    method creates and which it writes to.  Factor.v is the model of the values. *)
From Verif Require Import Base NDArray Factor.

(** A numpy array is a view of a buffer: the positions of its elements in row-major
    order.  Python floats (the potentials of trivial factors) are arrays without
    axes here; they are never shared.  factor.py:39, 206, 224, 229. *)
Record aview := mkV { vbuf : nat; vshape : list nat; vpos : list nat }.

(** factor.py:34-41: the attributes of a Factor object are references to an array,
    a list and a dict (whose values are tuples, which cannot be written to). *)
Record fobj := mkO { opot : aview; oorder : nat; ovals : nat }.

(** Python's memory (no line of its own in /repo). *)
Record memory := mkM {
  bufs : list (list Qc);
  lists : list (list string);
  dicts : list (dict (list string));
  facs : list fobj
}.

(** [np.array([])] (factor.py:39). *)
Definition nil_view : aview := mkV 0 [0] [].
(** Value for dangling references; does not occur.  Cf. factor.py:34-41. *)
Definition no_obj : fobj := mkO nil_view 0 0.
(** The buffer of an array (no line of its own in /repo). *)
Definition buf_of (m : memory) (v : aview) : list Qc := nth (vbuf v) (bufs m) [].
(** The object behind a reference (no line of its own in /repo). *)
Definition obj (m : memory) (r : nat) : fobj := nth r (facs m) no_obj.

(** What an array and a factor object hold.  factor.py:39-41. *)
Definition arr_of (m : memory) (v : aview) : ndarray := mkArr (vshape v) (map (fun p => nth p (buf_of m v) 0%Qc) (vpos v)).
(** [self.variableOrder] (factor.py:40). *)
Definition order_of (m : memory) (r : nat) : list string := nth (oorder (obj m r)) (lists m) [].
(** [self.values] (factor.py:41). *)
Definition vals_of (m : memory) (r : nat) : dict (list string) := nth (ovals (obj m r)) (dicts m) [].
(** [self.potentials] (factor.py:39). *)
Definition pot_of (m : memory) (r : nat) : ndarray := arr_of m (opot (obj m r)).
(** The three attributes (factor.py:39-41). *)
Definition factor_of (m : memory) (r : nat) : factor := mkF (pot_of m r) (order_of m r) (vals_of m r).

(** Programs with memory and exceptions.  E.g. factor.py:161-236. *)
Definition act (A : Type) := memory -> memory * res A.
(** Normal return (e.g. factor.py:236). *)
Definition done {A} (a : A) : act A := fun m => (m, Ok a).
(** A step that may raise (e.g. factor.py:156, 228). *)
Definition lift {A} (r : res A) : act A := fun m => (m, r).
(** Reading an attribute (e.g. factor.py:198). *)
Definition look {A} (f : memory -> A) : act A := fun m => (m, Ok (f m)).
(** One statement after another (e.g. factor.py:197-234). *)
Definition bind {A B} (c : act A) (k : A -> act B) : act B :=
  fun m => match c m with (m', Ok a) => k a m' | (m', Err e) => (m', Err e) end.
(** Notation for [bind] (e.g. factor.py:197-234). *)
Notation "'do' x <- c ; k" := (bind c (fun x => k)) (at level 200, x name, c at level 100, k at level 200, right associativity).
(** Notation for [bind] without a result (e.g. factor.py:198-199). *)
Notation "'do_' c ; k" := (bind c (fun _ => k)) (at level 200, c at level 100, k at level 200, right associativity).

(** A new array with the given elements: np.copy, np.array, and the result of
    arithmetic.  factor.py:234, 248, 278, 537. *)
Definition new_array (a : ndarray) : act aview := fun m =>
  (mkM (bufs m ++ [data a]) (lists m) (dicts m) (facs m), Ok (mkV (length (bufs m)) (shape a) (seq 0 (length (data a))))).
(** [list(l)] (factor.py:198, 254). *)
Definition new_list (l : list string) : act nat := fun m =>
  (mkM (bufs m) (lists m ++ [l]) (dicts m) (facs m), Ok (length (lists m))).
(** [dict(d)] (factor.py:199, 253). *)
Definition new_dict (d : dict (list string)) : act nat := fun m =>
  (mkM (bufs m) (lists m) (dicts m ++ [d]) (facs m), Ok (length (dicts m))).
(** Assignment to an attribute, list and dict methods.  factor.py:188-234. *)
Definition set_obj (r : nat) (f : fobj -> fobj) : act unit := fun m =>
  (mkM (bufs m) (lists m) (dicts m) (list_set r (f (obj m r)) (facs m)), Ok tt).
(** [res.potentials = v] (factor.py:206, 229, 234, 248). *)
Definition set_pot (r : nat) (v : aview) : act unit := set_obj r (fun o => mkO v (oorder o) (ovals o)).
(** [res.variableOrder = l] (factor.py:198, 254). *)
Definition set_order (r l : nat) : act unit := set_obj r (fun o => mkO (opot o) l (ovals o)).
(** [res.values = d] (factor.py:199, 253). *)
Definition set_vals (r d : nat) : act unit := set_obj r (fun o => mkO (opot o) (oorder o) d).
(** [res.variableOrder.extend/remove] (factor.py:208, 225, 539). *)
Definition on_order (r : nat) (f : list string -> list string) : act unit := fun m =>
  (mkM (bufs m) (list_set (oorder (obj m r)) (f (order_of m r)) (lists m)) (dicts m) (facs m), Ok tt).
(** [res.values[v] = t], [del res.values[v]] (factor.py:211, 538). *)
Definition on_vals (r : nat) (f : dict (list string) -> dict (list string)) : act unit := fun m =>
  (mkM (bufs m) (lists m) (list_set (ovals (obj m r)) (f (vals_of m r)) (dicts m)) (facs m), Ok tt).
(** Writing to the elements of an array ([a /= s], [a[mask] = 0]).  factor.py:279, 591. *)
Definition in_place (v : aview) (f : Qc -> Qc) : act unit := fun m =>
  let b := buf_of m v in
  let b' := map (fun p => if existsb (Nat.eqb p) (vpos v) then f (nth p b 0%Qc) else nth p b 0%Qc) (seq 0 (length b)) in
  (mkM (list_set (vbuf v) b' (bufs m)) (lists m) (dicts m) (facs m), Ok tt).

(** Views that share the buffer: [a[..., np.newaxis]] and np.transpose.  (The
    position [length] is outside the buffer; it is not used for arrays whose
    elements fill the shape.)  factor.py:206, 224. *)
Definition vexpand (v : aview) (n : nat) : aview := mkV (vbuf v) (vshape v ++ repeat 1 n) (vpos v).
(** [np.transpose] (factor.py:229): a view of the same buffer. *)
Definition vtranspose (v : aview) (perm : list nat) : act aview := fun m =>
  if is_perm (length (vshape v)) perm then
    let sh := map (fun k => nth k (vshape v) 0) perm in
    (m, Ok (mkV (vbuf v) sh
         (map (fun idx => nth (ravel (vshape v) (map (fun k => nth (pos_of k perm) idx 0) (seq 0 (length (vshape v)))))
                              (vpos v) (length (buf_of m v))) (indices sh))))
  else (m, Err ValueError).

(** factor.py:34-41 [__init__]. *)
Definition new_factor : act nat := fun m =>
  (mkM (bufs m ++ [[]]) (lists m ++ [[]]) (dicts m ++ [[]])
       (facs m ++ [mkO (mkV (length (bufs m)) [0] []) (length (lists m)) (length (dicts m))]), Ok (length (facs m))).

(** factor.py:238-255 [copy]. *)
Definition h_copy (self : nat) : act nat :=
  do res <- new_factor;
  do a <- look (fun m => pot_of m self);
  do v <- new_array a;
  do_ set_pot res v;
  do d <- look (fun m => vals_of m self);
  do d' <- new_dict d;
  do_ set_vals res d';
  do l <- look (fun m => order_of m self);
  do l' <- new_list l;
  do_ set_order res l';
  done res.

(** Arithmetic on the potentials of two factors, the result being assigned to
    those of [res].  factor.py:189, 194, 234. *)
Definition combine_into (op : Qc -> Qc -> Qc) (res a b : nat) : act unit :=
  do x <- look (fun m => pot_of m a);
  do y <- look (fun m => pot_of m b);
  do p <- lift (zipb op x y);
  do v <- new_array p;
  set_pot res v.

(** factor.py:112-113 / 210-211. *)
Fixpoint h_add_vals (res other : nat) (vars : list string) : act unit :=
  match vars with
  | [] => done tt
  | v :: vars' =>
      do d <- look (fun m => vals_of m other);
      do vs <- lift (dget_err KeyError v d);
      do_ on_vals res (dset v vs);
      h_add_vals res other vars'
  end.

(** factor.py:161-236 [__mul__] and, with [useOther] false, 63-136 [__add__]. *)
Definition h_combine {SO : SetOrder} (op : Qc -> Qc -> Qc) (useOther : bool) (self other : nat) : act nat :=
  do so <- look (fun m => order_of m self);
  match so with
  | [] =>
      do res <- (if useOther then done other else h_copy other);       (* 188 *)
      do_ combine_into op res self res;                                 (* 189 *)
      done res
  | _ :: _ =>
  do oo <- look (fun m => order_of m other);
  match oo with
  | [] =>
      do res <- h_copy self;                                            (* 193 *)
      do_ combine_into op res res other;                                (* 194 *)
      done res
  | _ :: _ =>
      do res <- new_factor;                                             (* 197 *)
      do l <- new_list so;
      do_ set_order res l;                                              (* 198 *)
      do sv <- look (fun m => vals_of m self);
      do d <- new_dict sv;
      do_ set_vals res d;                                               (* 199 *)
      let extra := sdiff oo so in                                       (* 200 *)
      do v <- look (fun m => opot (obj m self));
      do_ set_pot res (vexpand v (length extra));                       (* 206, 216 *)
      do_ on_order res (fun l => l ++ extra);                           (* 208 *)
      do_ h_add_vals res other extra;                                   (* 210-211 *)
      do f2 <- (if useOther then done other else h_copy other);         (* 219 *)
      do ro <- look (fun m => order_of m res);
      do o2 <- look (fun m => order_of m f2);
      let extra2 := sdiff ro o2 in                                      (* 220 *)
      do v2 <- look (fun m => opot (obj m f2));
      do_ set_pot f2 (vexpand v2 (length extra2));                      (* 224 *)
      do_ on_order f2 (fun l => l ++ extra2);                           (* 225 *)
      do o2' <- look (fun m => order_of m f2);
      do swap <- lift (mapM (fun x => py_index x o2') ro);              (* 228 *)
      do v3 <- look (fun m => opot (obj m f2));
      do v4 <- vtranspose v3 swap;
      do_ set_pot f2 v4;                                                (* 229 *)
      do_ combine_into op res res f2;                                   (* 234 *)
      done res
  end
  end.

(** factor.py:257-280 [invert]; 1/0 = inf is 0 here, so line 279 writes zeros over
    zeros. *)
Definition h_invert (self : nat) : act nat :=
  do res <- h_copy self;
  do l <- look (fun m => order_of m res);
  do a <- look (fun m => pot_of m res);
  match l with
  | [] =>
      if existsb (fun x => qeqb x 0%Qc) (data a) then lift (Err FloatingPointError)
      else do v <- new_array (amap Qcinv a);
           do_ set_pot res v;                                           (* 273 *)
           done res
  | _ :: _ =>
      do v <- new_array (amap Qcinv a);
      do_ set_pot res v;                                                (* 278 *)
      do_ in_place v (fun x => if qeqb x 0%Qc then 0%Qc else x);        (* 279 *)
      done res
  end.

(** factor.py:138-159 [__truediv__]. *)
Definition h_div {SO : SetOrder} (self other : nat) : act nat :=
  do a <- look (fun m => vals_of m self);
  do b <- look (fun m => vals_of m other);
  if subset (dkeys b) (dkeys a) then
    do i <- h_invert other;
    h_combine Qcmult false self i
  else lift (Err ValueError).

(** factor.py:536-539. *)
Fixpoint h_sum_out (res : nat) (vs : list string) : act unit :=
  match vs with
  | [] => done tt
  | v :: vs' =>
      do l <- look (fun m => order_of m res);
      do k <- lift (py_index v l);
      do a <- look (fun m => pot_of m res);
      do p <- new_array (sum_axis k a);
      do_ set_pot res p;                                                (* 537 *)
      do d <- look (fun m => vals_of m res);
      if dmem v d then
        do_ on_vals res (ddel v);                                       (* 538 *)
        do_ on_order res (remove1 v);                                   (* 539 *)
        h_sum_out res vs'
      else lift (Err KeyError)
  end.

(** factor.py:513-541 [marginalize]. *)
Definition h_marginalize (self : nat) (vs : list string) : act nat :=
  do res <- h_copy self;
  do_ h_sum_out res vs;
  done res.

(** factor.py:584-591 [normalize]. *)
Definition h_normalize (self : nat) : act unit :=
  do a <- look (fun m => pot_of m self);
  if qltb 0%Qc (asum a) then
    do v <- look (fun m => opot (obj m self));
    in_place v (fun x => (x / asum a)%Qc)
  else done tt.

(** factor.py:543-582 [get_potential]. *)
Definition h_get_potential (self : nat) (variables : dict (list string)) : act aview :=
  do f <- look (fun m => factor_of m self);
  do a <- lift (get_potential f variables);
  match variables with
  | [] => look (fun m => opot (obj m self))                             (* 579-580 *)
  | _ :: _ => new_array a                                               (* 582 *)
  end.

(** The class methods (factor.py:282-509) create a factor with its own list, dict
    and array from values. *)
Definition h_make (f : factor) : act nat :=
  do res <- new_factor;
  do_ on_order res (fun _ => vorder f);
  do_ on_vals res (fun _ => fvals f);
  do v <- new_array (pot f);
  do_ set_pot res v;
  done res.

(** Programs that use factors: variables are numbered in the order of their
    creation; results are bound to new variables.  Calls of factor.py:34-591. *)
Inductive fcall :=
| CMake (f : factor)
| CCopy (i : nat)
| CMul (i j : nat)
| CAdd (i j : nat)
| CDiv (i j : nat)
| CInvert (i : nat)
| CMarginalize (i : nat) (vs : list string)
| CNormalize (i : nat).

(** One call of factor.py:34-591. *)
Definition call_h {SO : SetOrder} (c : fcall) (env : list nat) : act (list nat) :=
  let var i := nth i env 0 in
  let bound (a : act nat) : act (list nat) := do r <- a; done (env ++ [r]) in
  match c with
  | CMake f => bound (h_make f)
  | CCopy i => bound (h_copy (var i))
  | CMul i j => bound (h_combine Qcmult false (var i) (var j))
  | CAdd i j => bound (h_combine Qcplus false (var i) (var j))
  | CDiv i j => bound (h_div (var i) (var j))
  | CInvert i => bound (h_invert (var i))
  | CMarginalize i vs => bound (h_marginalize (var i) vs)
  | CNormalize i => do_ h_normalize (var i); done env
  end.
