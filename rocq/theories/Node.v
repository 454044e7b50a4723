(** Model of primo2/nodes.py.  Nodes are mutable objects that refer to each other
    (a node's [parents] dict holds the parent objects), so they live in a heap. *)
From Verif Require Import Base NDArray.

(** Object identities.  Python's references to node objects (e.g. nodes.py:106). *)
Definition oid := nat.

(** The classes RandomNode (nodes.py:27), DiscreteNode (72), UtilityNode (410)
    and DecisionNode (524). *)
Inductive kind := KBase | KDiscrete | KUtility | KDecision.

(** The attribute [cpd]: the Python number 1 (nodes.py:36) or a numpy array with
    integer ([int = true]) or floating point elements.  Other dtypes are not
    modelled. *)
Inductive table := TNum (q : Qc) | TArr (int : bool) (a : ndarray).

(** [np.shape(self.cpd)] and the elements.  nodes.py:171, 492. *)
Definition tshape (t : table) : list nat := match t with TNum _ => [] | TArr _ a => shape a end.
(** The elements of [self.cpd] (nodes.py:36, 138). *)
Definition tarr (t : table) : ndarray := match t with TNum q => scalar q | TArr _ a => a end.

(** nodes.py:34-37, 84-89, 418-423, 533-540: the attributes.  RandomNode has no
    [values], [parents], [parentOrder], [valid]; UtilityNode has no [values]
    (the fields are then meaningless and never read, see [values_attr]).  Of the
    DecisionNode attributes [state] and [deterministic] are never read and left
    out; so is [utilities] (nodes.py:422), which is never read either.  The
    entries of [meta] are strings or None (io.py:68). *)
Record node := mkNode {
  nkind : kind;
  nname : string;
  nvalues : list string;
  nparents : dict oid;
  nporder : list string;
  ncpd : table;
  nvalid : bool;
  nmeta : list (option string)
}.

(** All node objects; Python's memory has no line in /repo. *)
Definition heap := list node.

(** Attribute setters used below.  nodes.py:138-139, 173-174, 218. *)
Definition with_cpd (n : node) (t : table) (v : bool) : node :=
  mkNode (nkind n) (nname n) (nvalues n) (nparents n) (nporder n) t v (nmeta n).
(** Assigning [parents] and [parentOrder] (nodes.py:106-107, 153-154; networks.py:107-109). *)
Definition with_parents (n : node) (d : dict oid) (o : list string) : node :=
  mkNode (nkind n) (nname n) (nvalues n) d o (ncpd n) (nvalid n) (nmeta n).
(** Assigning [values] (nodes.py:126). *)
Definition with_values (n : node) (vs : list string) : node :=
  mkNode (nkind n) (nname n) vs (nparents n) (nporder n) (ncpd n) (nvalid n) (nmeta n).
(** Assigning [name] (networks.py:114). *)
Definition with_name (n : node) (s : string) : node :=
  mkNode (nkind n) s (nvalues n) (nparents n) (nporder n) (ncpd n) (nvalid n) (nmeta n).
(** Assigning [meta] (io.py:69). *)
Definition with_meta (n : node) (l : list (option string)) : node :=
  mkNode (nkind n) (nname n) (nvalues n) (nparents n) (nporder n) (ncpd n) (nvalid n) l.

(** Reading an object.  A dangling id cannot occur in Python.  E.g. nodes.py:137. *)
Definition hget (h : heap) (i : oid) : res node :=
  match nth_error h i with Some n => Ok n | None => Err AttributeError end.

(** [node.values]: AttributeError for RandomNode and UtilityNode.
    E.g. nodes.py:137, 212, 259; decision.py:168. *)
Definition values_attr (n : node) : res (list string) :=
  match nkind n with
  | KDiscrete | KDecision => Ok (nvalues n)
  | _ => Err AttributeError
  end.

(** [self.parents[parentName].values].  nodes.py:137, 212, 216, 450, 569. *)
Definition parent_values (h : heap) (n : node) (p : string) : res (list string) :=
  let* o := dget_err KeyError p (nparents n) in
  let* m := hget h o in
  values_attr m.

(** [[len(self.values)] if self.values else []]; UtilityNode has none.  nodes.py:135, 448, 567. *)
Definition own_dims (n : node) : list nat :=
  match nkind n with
  | KDiscrete | KDecision => match nvalues n with [] => [] | _ :: _ => [length (nvalues n)] end
  | _ => []
  end.

(** nodes.py:130-139, 443-452, 562-571 [_update_dimensions].  RandomNode has no
    such method. *)
Definition update_dimensions (h : heap) (n : node) : res node :=
  match nkind n with
  | KBase => Err AttributeError
  | _ =>
      let* pv := mapM (parent_values h n) (nporder n) in
      Ok (with_cpd n (TArr false (np_zeros (own_dims n ++ map (@length string) pv))) false)
  end.

(** Calling [_update_dimensions] on the object [i] whose attributes were just
    changed to those of [n]: if it raises, the other changes stay.
    nodes.py:106-108, 126-127, 153-155. *)
Definition refresh (h : heap) (i : oid) (n : node) : heap * res unit :=
  let h' := list_set i n h in
  match update_dimensions h' n with
  | Ok n' => (list_set i n' h', Ok tt)
  | Err e => (h', Err e)
  end.

(** nodes.py:34-37, 74-90, 418-423, 533-541: the constructors. *)
Definition new_node (k : kind) (name : string) (values : list string) : node :=
  match k with
  | KBase | KUtility => mkNode k name [] [] [] (TNum 1%Qc) false []
  | _ => mkNode k name values [] []
           (TArr false (np_zeros (match values with [] => [] | _ :: _ => [length values] end))) false []
  end.

(** nodes.py:92-108, 425-441, 544-560 [add_parent]. *)
Definition add_parent (h : heap) (c p : oid) : heap * res unit :=
  match nth_error h c, nth_error h p with
  | Some n, Some m =>
      match nkind n with
      | KBase => (h, Err AttributeError)
      | _ => refresh h c (with_parents n (dset (nname m) p (nparents n)) (nporder n ++ [nname m]))
      end
  | _, _ => (h, Err AttributeError)
  end.

(** nodes.py:110-127 [set_values]; only DiscreteNode has it. *)
Definition set_values (h : heap) (i : oid) (vs : list string) : heap * res unit :=
  match nth_error h i with
  | Some n => match nkind n with
              | KDiscrete => refresh h i (with_values n vs)
              | _ => (h, Err AttributeError)
              end
  | None => (h, Err AttributeError)
  end.

(** nodes.py:141-155 [remove_parent]; only DiscreteNode has it. *)
Definition remove_parent (h : heap) (c p : oid) : heap * res unit :=
  match nth_error h c, nth_error h p with
  | Some n, Some m =>
      match nkind n with
      | KDiscrete =>
          if dmem (nname m) (nparents n) then                          (* 153 *)
            let d := ddel (nname m) (nparents n) in
            if mem (nname m) (nporder n) then                          (* 154 *)
              refresh h c (with_parents n d (remove1 (nname m) (nporder n)))
            else (list_set c (with_parents n d (nporder n)) h, Err ValueError)
          else (h, Err KeyError)
      | _ => (h, Err AttributeError)
      end
  | _, _ => (h, Err AttributeError)
  end.

(** nodes.py:157-174 [set_cpd] (DiscreteNode), 478-496 [set_utilities]
    (UtilityNode; same body).  The argument is any array-like, given by its
    elements and dtype.  RandomNode.set_cpd raises NotImplementedError (39-40),
    which DecisionNode inherits and UtilityNode keeps for [set_cpd]. *)
Definition store_table (n : node) (int : bool) (a : ndarray) : res node :=
  if list_eq_dec Nat.eq_dec (tshape (ncpd n)) (shape a)
  then Ok (with_cpd n (TArr int a) true)
  else Err ValueError.

(** nodes.py:157-174, 39-40 [set_cpd]. *)
Definition set_cpd (n : node) (int : bool) (a : ndarray) : res node :=
  match nkind n with
  | KDiscrete => store_table n int a
  | _ => Err NotImplementedError
  end.

(** nodes.py:478-496 [set_utilities]. *)
Definition set_utilities (n : node) (int : bool) (a : ndarray) : res node :=
  match nkind n with
  | KUtility => store_table n int a
  | _ => Err AttributeError
  end.

(** Conversion of an assigned number to the array's dtype: integer arrays drop
    the fractional part.  nodes.py:218, 522, 592. *)
Definition cast (int : bool) (q : Qc) : Qc :=
  if int then Q2Qc (inject_Z (Z.quot (Qnum q) (Zpos (Qden q)))) else q.

(** [self.cpd[tuple(index)] = prob]: the Python number 1 does not support item
    assignment. *)
Definition put (n : node) (s : list sel) (q : Qc) : res node :=
  match ncpd n with
  | TNum _ => Err TypeError
  | TArr int a => let* a' := assign a s (cast int q) in Ok (with_cpd n (TArr int a') (nvalid n))
  end.

(** [[self.values.index(valueName)] if self.values else []].  nodes.py:202, 248, 301, 588. *)
Definition own_index (n : node) (x : string) : res (list nat) :=
  match nvalues n with
  | [] => Ok []
  | _ :: _ => let* i := py_index x (nvalues n) in Ok [i]
  end.

(** nodes.py:204-215 and 512-520: one entry per parent, an index or a slice. *)
Definition parent_sel (h : heap) (n : node) (pv : dict string) (p : string) : res sel :=
  let* vs := parent_values h n p in
  match dget p pv with
  | Some x => let* i := py_index x vs in Ok (Fix i)
  | None => Ok (Upto (length vs))
  end.

(** nodes.py:176-218 [set_probability]; [parentValues=None] is the empty dict. *)
Definition set_probability (h : heap) (n : node) (x : string) (prob : Qc) (pv : dict string) : res node :=
  match nkind n with
  | KDiscrete =>
      let* i := own_index n x in
      let* s := mapM (parent_sel h n pv) (nporder n) in
      put n (map Fix i ++ s) prob
  | _ => Err AttributeError
  end.

(** nodes.py:498-522 [set_utility]. *)
Definition set_utility (h : heap) (n : node) (u : Qc) (pv : dict string) : res node :=
  match nkind n with
  | KUtility => let* s := mapM (parent_sel h n pv) (nporder n) in put n s u
  | _ => Err AttributeError
  end.

(** A dict value of [get_probability]: a single value or a list of values.
    nodes.py:236-239, 257. *)
Inductive pick := One (x : string) | Many (l : list string).

(** nodes.py:255-268. *)
Definition pick_index (h : heap) (n : node) (pv : dict pick) (p : string) : res (list nat) :=
  let* vs := parent_values h n p in
  match dget p pv with
  | Some (Many l) => mapM (fun x => py_index x vs) l
  | Some (One x) => let* i := py_index x vs in Ok [i]
  | None => Ok (seq 0 (length vs))
  end.

(** [self.cpd[index]], [index] made by [np.ix_] (nodes.py:271-272) with one index list per axis
    and all positions in range; otherwise IndexError (numpy would also accept
    fewer lists than axes; the number of lists always matches, C21). *)
Definition ix_ok (sh : list nat) (ls : list (list nat)) : bool :=
  Nat.eqb (length ls) (length sh) &&
  forallb (fun p => forallb (fun i => Nat.ltb i (fst p)) (snd p)) (combine sh ls).

(** nodes.py:220-274 [get_probability]. *)
Definition get_probability (h : heap) (n : node) (x : string) (pv : dict pick) : res ndarray :=
  match nkind n with
  | KDiscrete =>
      let* i := own_index n x in
      let* s := mapM (pick_index h n pv) (nporder n) in
      let ls := map (fun k => [k]) i ++ s in
      if ix_ok (shape (tarr (ncpd n))) ls then Ok (squeeze (take_ix (tarr (ncpd n)) ls))
      else Err IndexError
  | _ => Err AttributeError
  end.

(** One index per parent: nodes.py:305-312, 467-475. *)
Definition parent_index (h : heap) (n : node) (st : dict string) (p : string) : res nat :=
  let* o := dget_err KeyError p (nparents n) in
  let* m := hget h o in
  let* vs := values_attr m in
  let* x := dget_err KeyError p st in
  py_index x vs.

(** nodes.py:276-315 [_get_single_probability].  An incomplete index would give
    a sub-array; the index is always complete (C21). *)
Definition single_probability (h : heap) (n : node) (x : string) (st : dict string) : res Qc :=
  match nkind n with
  | KDiscrete =>
      let* i := own_index n x in
      let* s := mapM (parent_index h n st) (nporder n) in
      aget_err (tarr (ncpd n)) (i ++ s)
  | _ => Err AttributeError
  end.

(** nodes.py:454-476 [get_utility]; the initial cpd, a Python number, cannot be
    indexed. *)
Definition get_utility (h : heap) (n : node) (pv : dict string) : res Qc :=
  match nkind n with
  | KUtility =>
      let* s := mapM (parent_index h n pv) (nporder n) in
      match ncpd n with
      | TNum _ => Err TypeError
      | TArr _ a => aget_err a s
      end
  | _ => Err AttributeError
  end.

(** nodes.py:573-592 [set_decision]: the table is zeroed in place before the
    decision is looked up. *)
Definition set_decision (n : node) (d : string) : node * res unit :=
  match nkind n with
  | KDecision =>
      let n0 := match ncpd n with
                | TArr int a => with_cpd n (TArr int (amap (fun _ => 0%Qc) a)) (nvalid n)
                | TNum _ => with_cpd n (TNum 0%Qc) (nvalid n)
                end in
      match (let* i := own_index n d in put n0 (map Fix i) 1%Qc) with
      | Ok n' => (n', Ok tt)
      | Err e => (n0, Err e)
      end
  | _ => (n, Err AttributeError)
  end.

(** nodes.py:594-596 [fully_mixed]; 1/0 is inf. *)
Definition fully_mixed (n : node) : res node :=
  match nkind n with
  | KDecision =>
      match nvalues n with
      | [] => Err NonFinite
      | _ :: _ => Ok (with_cpd n (TArr false (np_full (tshape (ncpd n)) (/ qnat (length (nvalues n)))%Qc)) (nvalid n))
      end
  | _ => Err AttributeError
  end.
