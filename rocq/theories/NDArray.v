(** The numpy operations PRIMO uses, as functions on shape + row-major data.
    (External library: modelled from numpy's documented behaviour.) *)
From Verif Require Import Base.

(** The attribute [potentials] of factors (factor.py:39) and [cpd] of nodes (nodes.py:138). *)
Record ndarray := mkArr { shape : list nat; data : list Qc }.

(** [len(a.shape)]; for factor.py:106, 124 the number of variables equals it. *)
Definition rank (a : ndarray) : nat := length (shape a).
(** [np.size] of an array of that shape (io.py:142). *)
Fixpoint prodn (sh : list nat) : nat :=
  match sh with [] => 1 | d :: sh' => d * prodn sh' end.

(** All multi-indices of a shape in row-major ("C") order.
    Numpy's element order; used for all operations below (no line of its own in /repo). *)
Fixpoint indices (sh : list nat) : list (list nat) :=
  match sh with
  | [] => [[]]
  | d :: sh' => flat_map (fun i => map (cons i) (indices sh')) (seq 0 d)
  end.

(** Row-major offset of a multi-index.
    Numpy's element order; used for all operations below (no line of its own in /repo). *)
Fixpoint ravel (sh idx : list nat) : nat :=
  match sh, idx with
  | _ :: sh', i :: idx' => i * prodn sh' + ravel sh' idx'
  | _, _ => 0
  end.

(** [a[idx]] (nodes.py:315, 476; factor.py:320). *)
Definition aget (a : ndarray) (idx : list nat) : Qc :=
  nth (ravel (shape a) idx) (data a) 0%Qc.

(** An array given element by element (no line of its own in /repo). *)
Definition tabulate (sh : list nat) (f : list nat -> Qc) : ndarray :=
  mkArr sh (map f (indices sh)).

(** [np.zeros], [np.ones], 0-d arrays / python floats. *)
Definition np_full (sh : list nat) (q : Qc) : ndarray := tabulate sh (fun _ => q).
(** [np.zeros(shape)] (nodes.py:138, factor.py:315, 344, 473). *)
Definition np_zeros sh := np_full sh 0%Qc.
(** [np.ones(shape)] (factor.py:333, 486; nodes.py:595). *)
Definition np_ones sh := np_full sh 1%Qc.
(** Python floats and 0-d arrays (factor.py:364, nodes.py:36). *)
Definition scalar (q : Qc) : ndarray := mkArr [] [q].

(** Bounds check of an index against a shape.  For the IndexError at nodes.py:315, 476. *)
Fixpoint inbb (sh idx : list nat) : bool :=
  match sh, idx with
  | [], [] => true
  | d :: sh', i :: idx' => Nat.ltb i d && inbb sh' idx'
  | _, _ => false
  end.

(** Elementwise arithmetic with a number (factor.py:278, 321, 591). *)
Definition amap (f : Qc -> Qc) (a : ndarray) : ndarray := mkArr (shape a) (map f (data a)).

(** [np.sum(a)].  factor.py:321, 589. *)
Definition asum (a : ndarray) : Qc := qsum (data a).

(** [a[(slice(None),)*rank + (np.newaxis,)*n]]: append [n] axes of length 1. *)
Definition expand (a : ndarray) (n : nat) : ndarray := mkArr (shape a ++ repeat 1 n) (data a).

(** [np.transpose(a, perm)]: axis [k] of the result is axis [perm[k]] of [a].
    factor.py:131, 229. *)
Fixpoint pos_of (m : nat) (l : list nat) : nat :=
  match l with
  | [] => 0
  | x :: l' => if Nat.eqb x m then 0 else S (pos_of m l')
  end.

(** For [is_perm] (factor.py:131, 229). *)
Fixpoint nodupb (l : list nat) : bool :=
  match l with [] => true | x :: l' => negb (existsb (Nat.eqb x) l') && nodupb l' end.

(** What [np.transpose] requires of its argument (factor.py:131, 229). *)
Definition is_perm (n : nat) (perm : list nat) : bool :=
  Nat.eqb (length perm) n && nodupb perm && forallb (fun k => Nat.ltb k n) perm.

(** [np.transpose(a, perm)] (factor.py:131, 229); ValueError for other arguments than permutations. *)
Definition transpose (a : ndarray) (perm : list nat) : res ndarray :=
  if is_perm (rank a) perm then
    Ok (tabulate (map (fun k => nth k (shape a) 0) perm)
         (fun idx => aget a (map (fun m => nth (pos_of m perm) idx 0) (seq 0 (rank a)))))
  else Err ValueError.

(** numpy broadcasting of two shapes (right aligned, 1 stretches). *)
Definition padded (n : nat) (sh : list nat) : list nat := repeat 1 (n - length sh) ++ sh.

(** The broadcast shape (factor.py:91, 96, 134, 189, 194, 234); ValueError if there is none. *)
Fixpoint bshape (s1 s2 : list nat) : res (list nat) :=
  match s1, s2 with
  | [], [] => Ok []
  | d1 :: s1', d2 :: s2' =>
      let* s := bshape s1' s2' in
      if Nat.eqb d1 d2 then Ok (d1 :: s)
      else if Nat.eqb d1 1 then Ok (d2 :: s)
      else if Nat.eqb d2 1 then Ok (d1 :: s)
      else Err ValueError
  | _, _ => Err ValueError
  end.

(** An axis of length 1 is read at position 0 (broadcasting, factor.py:134, 234). *)
Definition clip (sh idx : list nat) : list nat :=
  map (fun p => if Nat.eqb (fst p) 1 then 0 else snd p) (combine sh idx).

(** Element of [a] that is broadcast to position [idx] of the result.  factor.py:134, 234. *)
Definition bget (a : ndarray) (idx : list nat) : Qc :=
  aget a (clip (shape a) (skipn (length idx - rank a) idx)).

(** [a + b], [a * b] with broadcasting (factor.py:91, 96, 134, 189, 194, 234). *)
Definition zipb (op : Qc -> Qc -> Qc) (a b : ndarray) : res ndarray :=
  let n := Nat.max (rank a) (rank b) in
  let* s := bshape (padded n (shape a)) (padded n (shape b)) in
  Ok (tabulate s (fun idx => op (bget a idx) (bget b idx))).

(** [np.sum(a, axis=k)].  factor.py:537. *)
Definition sum_axis (k : nat) (a : ndarray) : ndarray :=
  tabulate (list_del k (shape a))
    (fun idx => bigsum (nth k (shape a) 0) (fun i => aget a (list_insert k i idx))).

(** [a[np.ix_(l1, ..., lr)]] for in-range index lists. *)
Fixpoint nths (ls : list (list nat)) (idx : list nat) : list nat :=
  match ls, idx with
  | l :: ls', i :: idx' => nth i l 0 :: nths ls' idx'
  | _, _ => []
  end.

(** [a[np.ix_(l1, ..., lr)]] (factor.py:582, nodes.py:271-272). *)
Definition take_ix (a : ndarray) (ls : list (list nat)) : ndarray :=
  tabulate (map (@length nat) ls) (fun idx => aget a (nths ls idx)).

(** [np.squeeze]: drop axes of length 1; the data is unchanged. *)
Definition squeeze (a : ndarray) : ndarray :=
  mkArr (filter (fun d => negb (Nat.eqb d 1)) (shape a)) (data a).

(** [a[idx]] for an index that must address a single element.  nodes.py:315, 476. *)
Definition aget_err (a : ndarray) (idx : list nat) : res Qc :=
  if inbb (shape a) idx then Ok (aget a idx) else Err IndexError.

(** [a[idx] += q] / [a[idx] = q] for a complete index.  factor.py:320. *)
Definition aset (a : ndarray) (idx : list nat) (q : Qc) : ndarray :=
  mkArr (shape a) (list_set (ravel (shape a) idx) q (data a)).

(** Mixed integer / slice assignment [a[(i | slice(n), ...)] = q].  nodes.py:218, 522, 592. *)
Inductive sel := Fix (i : nat) | Upto (n : nat).

(** Whether the index of nodes.py:218, 522, 592 is in range (IndexError otherwise). *)
Fixpoint sel_ok (sh : list nat) (s : list sel) : bool :=
  match s, sh with
  | [], _ => true
  | _ :: _, [] => false                               (* too many indices *)
  | Fix i :: s', d :: sh' => Nat.ltb i d && sel_ok sh' s'
  | Upto _ :: s', d :: sh' => sel_ok sh' s'           (* slices are clipped *)
  end.

(** Whether an element is addressed by the index of nodes.py:218, 522, 592. *)
Fixpoint sel_match (s : list sel) (idx : list nat) : bool :=
  match s, idx with
  | [], _ => true
  | _ :: _, [] => false
  | Fix i :: s', j :: idx' => Nat.eqb i j && sel_match s' idx'
  | Upto n :: s', j :: idx' => Nat.ltb j n && sel_match s' idx'
  end.

(** [a[index] = q] (nodes.py:218, 522, 592). *)
Definition assign (a : ndarray) (s : list sel) (q : Qc) : res ndarray :=
  if sel_ok (shape a) s then
    Ok (tabulate (shape a) (fun idx => if sel_match s idx then q else aget a idx))
  else Err IndexError.

(** Fortran order flattening and reshaping.  io.py:142. *)
Definition ravel_F (a : ndarray) : list Qc :=
  map (fun ridx => aget a (rev ridx)) (indices (rev (shape a))).

(** [np.reshape(l, shape, "F")] (io.py:88). *)
Definition reshape_F (sh : list nat) (l : list Qc) : res ndarray :=
  if Nat.eqb (length l) (prodn sh) then
    Ok (tabulate sh (fun idx => nth (ravel (rev sh) (rev idx)) l 0%Qc))
  else Err ValueError.

(** [np.argmax] (first maximum) and [np.max] of a non-empty 1-d array. *)
Fixpoint argmax_from (i besti : nat) (best : Qc) (l : list Qc) : nat * Qc :=
  match l with
  | [] => (besti, best)
  | x :: l' => if qltb best x then argmax_from (S i) i x l'
               else argmax_from (S i) besti best l'
  end.
(** [np.argmax], [np.max] (factor.py:489-490); None for an empty array (ValueError). *)
Definition argmax (l : list Qc) : option (nat * Qc) :=
  match l with [] => None | x :: l' => Some (argmax_from 1 0 x l') end.
