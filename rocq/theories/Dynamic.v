(** Model of dynamic Bayesian networks: primo2/networks.py, class
    DynamicBayesianNetwork, and primo2/inference/dynamic.py. *)
From Verif Require Import Base NDArray Factor Exact Order JoinTree Node Network.

(** networks.py:196-217: B_0, the 2-TBN and the transitions.  The two networks
    may share node objects; both live in one heap.  Nodes given in transitions
    count as their names (nodes.py:43-64). *)
Record dbnet := mkDbn {
  db0 : net;
  dtwo : net;
  dtrans : list (string * string)
}.

(** networks.py:128-129: [node in bn.get_all_nodes()]. *)
Definition in_net (v : string) (g : net) : bool := dmem v (ggraph g).

(** networks.py:260-292 [add_transition].  The message of the second error
    contains ["B_{->}"], which [str.format] takes for a field name: KeyError
    instead of StructureError (line 286). *)
Definition add_transition (d : dbnet) (v p : string) : dbnet * res unit :=
  if negb (in_net p (db0 d)) then (d, Err StructureError)
  else if negb (in_net p (dtwo d)) then (d, Err KeyError)
  else if negb (in_net v (dtwo d)) then (d, Err StructureError)
  else (mkDbn (db0 d) (dtwo d) (dtrans d ++ [(v, p)]), Ok tt).

(** networks.py:294-304 [add_transitions]: those before a failing one stay. *)
Fixpoint add_transitions (d : dbnet) (l : list (string * string)) : dbnet * res unit :=
  match l with
  | [] => (d, Ok tt)
  | (v, p) :: l' => match add_transition d v p with
                    | (d', Ok _) => add_transitions d' l'
                    | r => r
                    end
  end.

(** networks.py:196-217: the constructor; an exception leaves no object. *)
Definition new_dbn (b0 two : net) (transitions : list (string * string)) : res dbnet :=
  match add_transitions (mkDbn b0 two []) transitions with
  | (d, Ok _) => Ok d
  | (_, Err e) => Err e
  end.

(** networks.py:227-236 [b0.setter]: the transitions are not looked at. *)
Definition set_b0 (g : net) (d : dbnet) : dbnet := mkDbn g (dtwo d) (dtrans d).
(** networks.py:249-258 [two_tbn.setter], likewise. *)
Definition set_two (g : net) (d : dbnet) : dbnet := mkDbn (db0 d) g (dtrans d).

(** [copy.deepcopy(dbn)] (dynamic.py:193): every node object is copied, and the
    copies refer to copies.  (Python copies the reachable ones only; the others
    are of no consequence.) *)
Definition shift_dict (k : nat) (d : dict oid) : dict oid := map (fun p => (fst p, snd p + k)) d.
(** A copied node object refers to the copies of its parents (dynamic.py:193). *)
Definition shift_node (k : nat) (n : node) : node := with_parents n (shift_dict k (nparents n)) (nporder n).
(** A copied network refers to the copied node objects (dynamic.py:193). *)
Definition shift_net (k : nat) (g : net) : net :=
  mkNet (shift_dict k (lookup g)) (shift_dict k (ggraph g)) (gedges g) (bname g) (bmeta g).
(** [copy.deepcopy(dbn)] (dynamic.py:193). *)
Definition deepcopy (h : heap) (d : dbnet) : heap * dbnet :=
  (h ++ map (shift_node (length h)) h,
   mkDbn (shift_net (length h) (db0 d)) (shift_net (length h) (dtwo d)) (dtrans d)).

(** The two inference methods, dynamic.py:182-250 and 253-322. *)
Inductive method := PriorFeedback | SoftEvidence.

(** dynamic.py:43-54, 191-194, 262-265: the state of an inference object, with
    the heap.  [mtree] is [_ft] with the network it was created for ([true]:
    B_0); [mtrans] is [_transition_evidence] (SoftEvidenceExact only). *)
Record mstate := mkM {
  mheap : heap;
  mdbn : dbnet;
  mt : nat;
  mflag : bool;
  mtree : option (bool * jtree);
  mtrans : dict ndarray
}.

(** dynamic.py:43-54, 191-194, 262-265: the constructors. *)
Definition mcreate (m : method) (h : heap) (d : dbnet) : mstate :=
  match m with
  | PriorFeedback => let (h', d') := deepcopy h d in mkM h' d' 0 false None []
  | SoftEvidence => mkM h d 0 false None []
  end.

(** [self._ft = ...], and changes of the tree (dynamic.py:235-240, 306-311). *)
Definition with_tree (s : mstate) (x : option (bool * jtree)) : mstate :=
  mkM (mheap s) (mdbn s) (mt s) (mflag s) x (mtrans s).
(** [self._evidence = x] (dynamic.py:116, 145). *)
Definition with_flag (s : mstate) (x : bool) : mstate :=
  mkM (mheap s) (mdbn s) (mt s) x (mtree s) (mtrans s).
(** Changes of [self._transition_evidence] (dynamic.py:318-321). *)
Definition with_trans (s : mstate) (x : dict ndarray) : mstate :=
  mkM (mheap s) (mdbn s) (mt s) (mflag s) (mtree s) x.
(** [self._t += 1] (dynamic.py:250, 322). *)
Definition tick (s : mstate) : mstate :=
  mkM (mheap s) (mdbn s) (S (mt s)) (mflag s) (mtree s) (mtrans s).

(** The network a tree reads.  [FactorTree.bn], set at dynamic.py:235-237, 306-309. *)
Definition slice_net (s : mstate) (first : bool) : bn :=
  view (mkW (mheap s) (if first then db0 (mdbn s) else dtwo (mdbn s))).

Section Dyn.
Context {SO : SetOrder}.

(** [self._ft = exact.FactorTree.create_jointree(...)].  dynamic.py:235, 237, 306, 309. *)
Definition new_tree (s : mstate) (first : bool) : mstate * res unit :=
  match create_jointree (slice_net s first) None with
  | Ok t => (with_tree s (Some (first, t)), Ok tt)
  | Err e => (s, Err e)
  end.

(** A method call on [self._ft]; it is None before the first evidence.
    dynamic.py:220, 239-240, 291, 311. *)
Definition on_tree {A} (s : mstate) (f : bn -> jtree -> jtree * res A) : mstate * res A :=
  match mtree s with
  | None => (s, Err AttributeError)
  | Some (first, t) => let r := f (slice_net s first) t in (with_tree s (Some (first, fst r)), snd r)
  end.

(** One statement after another (e.g. dynamic.py:142-145); an exception ends the function. *)
Definition seq_calls (c : mstate * res unit) (k : mstate -> mstate * res unit) : mstate * res unit :=
  match c with (s, Ok _) => k s | (s, Err e) => (s, Err e) end.

(** The evidence argument: a dict or None.  dynamic.py:240, 304. *)
Definition given (ev : option evidence) : evidence := match ev with Some e => e | None => [] end.

(** [dict.update].  dynamic.py:310. *)
Definition dupdate {A} (d e : dict A) : dict A := fold_left (fun d p => dset (fst p) (snd p) d) e d.

(** dynamic.py:222-240 and 293-311 [_set_evidence].  [kw] is the keyword argument
    [soft_posteriors], which SoftEvidenceExact does not accept. *)
Definition set_evidence_ (m : method) (s : mstate) (ev : option evidence) (kw : option bool) : mstate * res unit :=
  match m with
  | PriorFeedback =>
      let soft := match kw with Some x => x | None => false end in
      seq_calls (match mt s with
                 | 0 => new_tree s true
                 | 1 => new_tree s false
                 | _ => on_tree s reset_factors
                 end)
        (fun s' => on_tree s' (fun b t => set_evidence b (given ev) soft t))
  | SoftEvidence =>
      match kw with
      | Some _ => (s, Err TypeError)
      | None =>
          seq_calls (match mt s with
                     | 0 => new_tree s true
                     | 1 => new_tree s false
                     | _ => (s, Ok tt)
                     end)
            (fun s' => on_tree s' (fun b t => set_evidence b
               (match mt s with
                | 0 => given ev
                | _ => dupdate (given ev) (map (fun p => (fst p, Soft (data (snd p)))) (mtrans s))
                end) true t))
      end
  end.

(** dynamic.py:204-220, 275-291 [marginals]. *)
Definition dmarginals (s : mstate) (vs : list string) : mstate * res factor :=
  on_tree s (fun _ t => tmarginals t vs).

(** [self._ft.marginals([v]).get_potential()].  dynamic.py:249, 321. *)
Definition slice_table (s : mstate) (v : string) : mstate * res ndarray :=
  match dmarginals s [v] with
  | (s', Ok f) => (s', get_potential f [])
  | (s', Err e) => (s', Err e)
  end.

(** dynamic.py:247-249: [self._dbn._two_tbn.get_node(node).set_cpd(...)]; the
    node is looked up before its argument is evaluated. *)
Definition feed_prior (s : mstate) (v p : string) : mstate * res unit :=
  match dget v (lookup (dtwo (mdbn s))) with
  | None => (s, Err PlainException)
  | Some i =>
      match slice_table s p with
      | (s', Err e) => (s', Err e)
      | (s', Ok a) =>
          match nth_error (mheap s') i with
          | None => (s', Err AttributeError)
          | Some n => match set_cpd n false a with
                      | Ok n' => (mkM (list_set i n' (mheap s')) (mdbn s') (mt s') (mflag s') (mtree s') (mtrans s'), Ok tt)
                      | Err e => (s', Err e)
                      end
          end
      end
  end.

(** dynamic.py:319-321. *)
Definition feed_soft (s : mstate) (v p : string) : mstate * res unit :=
  match slice_table s p with
  | (s', Ok a) => (with_trans s' (dset v a (mtrans s')), Ok tt)
  | (s', Err e) => (s', Err e)
  end.

(** The loops dynamic.py:247-249, 319-321. *)
Fixpoint feed_all (f : mstate -> string -> string -> mstate * res unit) (l : list (string * string)) (s : mstate) : mstate * res unit :=
  match l with
  | [] => (s, Ok tt)
  | (v, p) :: l' => seq_calls (f s v p) (feed_all f l')
  end.

(** dynamic.py:242-250 and 313-322 [_unroll]. *)
Definition unroll_ (m : method) (s : mstate) : mstate * res unit :=
  match m with
  | PriorFeedback => seq_calls (feed_all feed_prior (dtrans (mdbn s)) s) (fun s' => (tick s', Ok tt))
  | SoftEvidence => seq_calls (feed_all feed_soft (dtrans (mdbn s)) (with_trans s [])) (fun s' => (tick s', Ok tt))
  end.

(** dynamic.py:96-117 [set_evidence]: the keyword arguments are not passed on. *)
Definition dset_evidence (m : method) (s : mstate) (ev : option evidence) (kw : option bool) : mstate * res unit :=
  seq_calls (set_evidence_ m s ev None) (fun s' => (with_flag s' true, Ok tt)).

(** dynamic.py:119-146 [unroll]. *)
Definition dunroll (m : method) (s : mstate) (ev : option evidence) (kw : option bool) : mstate * res unit :=
  seq_calls (if negb (mflag s) || match ev with Some _ => true | None => false end
             then set_evidence_ m s ev kw else (s, Ok tt))
    (fun s1 => seq_calls (unroll_ m s1) (fun s2 => (with_flag s2 false, Ok tt))).

(** The calls a program can make on an inference object; [t] is read only.
    dynamic.py:96-146, 204-220, 275-291. *)
Inductive mcall :=
| MEvidence (ev : option evidence) (kw : option bool)
| MUnroll (ev : option evidence) (kw : option bool)
| MQuery (vs : list string).

(** dynamic.py:96-146, 204-220, 275-291: one call. *)
Definition mexec (m : method) (s : mstate) (c : mcall) : mstate * res unit :=
  match c with
  | MEvidence ev kw => dset_evidence m s ev kw
  | MUnroll ev kw => dunroll m s ev kw
  | MQuery vs => let r := dmarginals s vs in (fst r, match snd r with Ok _ => Ok tt | Err e => Err e end)
  end.

(** A history, exceptions caught.  Any program that uses dynamic.py:96-146, 204-220. *)
Fixpoint mrun (m : method) (s : mstate) (cs : list mcall) : mstate :=
  match cs with [] => s | c :: cs' => mrun m (fst (mexec m s c)) cs' end.

(** dynamic.py:196-202, 267-273 [marginal_probabilities]; the values are the keys
    of a dict. *)
Definition marginal_probabilities (s : mstate) (v : string) : mstate * res (dict Qc) :=
  match dmarginals s [v] with
  | (s', Err e) => (s', Err e)
  | (s', Ok f) => (s', let* vals := dget_err KeyError v (fvals f) in
                       let* a := get_potential f [] in
                       Ok (fold_left (fun d p => dset (fst p) (snd p) d) (combine vals (data a)) []))
  end.
End Dyn.
