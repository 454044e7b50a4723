(** PriorFeedbackExact (dynamic.py:182-250) in rounded arithmetic.  The functions of
    Dynamic.v with the operations on join trees as arguments; [dyn_by_exact]
    (RoundedDynTop.v) shows that with the exact operations they are those functions.
    The keyword argument soft_posteriors is not given, or False. *)
From Verif Require Import Base NDArray Factor Exact Order JoinTree Node Network Rounded RoundedTree Dynamic.

Section Calls.
Variables (create : bn -> option (list string) -> res jtree) (reset : bn -> jtree -> jtree * res unit)
  (evidence_on : bn -> evidence -> jtree -> jtree * res unit) (query : jtree -> list string -> jtree * res factor).

(** [self._ft = exact.FactorTree.create_jointree(...)].  dynamic.py:235, 237. *)
Definition new_tree_by (s : mstate) (first : bool) : mstate * res unit :=
  match create (slice_net s first) None with
  | Ok t => (with_tree s (Some (first, t)), Ok tt)
  | Err e => (s, Err e)
  end.

(** dynamic.py:222-240 [_set_evidence], without keyword arguments. *)
Definition prior_evidence_by (s : mstate) (ev : option evidence) : mstate * res unit :=
  seq_calls (match mt s with
             | 0 => new_tree_by s true
             | 1 => new_tree_by s false
             | _ => on_tree s reset
             end)
    (fun s' => on_tree s' (fun b t => evidence_on b (given ev) t)).

(** dynamic.py:204-220 [marginals]. *)
Definition dmarginals_by (s : mstate) (vs : list string) : mstate * res factor :=
  on_tree s (fun _ t => query t vs).

(** [self._ft.marginals([v]).get_potential()].  dynamic.py:249. *)
Definition slice_table_by (s : mstate) (v : string) : mstate * res ndarray :=
  match dmarginals_by s [v] with
  | (s', Ok f) => (s', get_potential f [])
  | (s', Err e) => (s', Err e)
  end.

(** dynamic.py:247-249: [self._dbn._two_tbn.get_node(node).set_cpd(...)]. *)
Definition feed_prior_by (s : mstate) (v p : string) : mstate * res unit :=
  match dget v (lookup (dtwo (mdbn s))) with
  | None => (s, Err PlainException)
  | Some i =>
      match slice_table_by s p with
      | (s', Err e) => (s', Err e)
      | (s', Ok a) =>
          match nth_error (mheap s') i with
          | None => (s', Err AttributeError)
          | Some n => match set_cpd n false a with
                      | Ok n' => (mkM (list_set i n' (mheap s')) (mdbn s') (mt s') (mflag s') (mtree s') (mtrans s'), Ok tt)
                      | Err e => (s', Err e)
                      end
          end
      end
  end.

(** dynamic.py:242-250 [_unroll]. *)
Definition prior_unroll_by (s : mstate) : mstate * res unit :=
  seq_calls (feed_all feed_prior_by (dtrans (mdbn s)) s) (fun s' => (tick s', Ok tt)).

(** dynamic.py:96-117 [set_evidence]. *)
Definition dset_evidence_by (s : mstate) (ev : option evidence) : mstate * res unit :=
  seq_calls (prior_evidence_by s ev) (fun s' => (with_flag s' true, Ok tt)).

(** dynamic.py:119-146 [unroll]. *)
Definition dunroll_by (s : mstate) (ev : option evidence) : mstate * res unit :=
  seq_calls (if negb (mflag s) || match ev with Some _ => true | None => false end
             then prior_evidence_by s ev else (s, Ok tt))
    (fun s1 => seq_calls (prior_unroll_by s1) (fun s2 => (with_flag s2 false, Ok tt))).
End Calls.

Section Rounded.
Context {RD : Rounding} {AD : Adding} {SO : SetOrder}.
(** dynamic.py:222-240 in rounded arithmetic. *)
Definition rprior_evidence : mstate -> option evidence -> mstate * res unit := prior_evidence_by rounded_jointree rounded_reset rounded_evidence.
(** dynamic.py:204-220 in rounded arithmetic. *)
Definition rdmarginals : mstate -> list string -> mstate * res factor := dmarginals_by rounded_tree.
(** dynamic.py:96-117 in rounded arithmetic. *)
Definition rdset_evidence : mstate -> option evidence -> mstate * res unit := dset_evidence_by rounded_jointree rounded_reset rounded_evidence.
(** dynamic.py:119-146 in rounded arithmetic. *)
Definition rdunroll : mstate -> option evidence -> mstate * res unit := dunroll_by rounded_jointree rounded_reset rounded_evidence rounded_tree.
(** dynamic.py:191-194 [__init__]: nothing is computed. *)
Definition rdcreate : heap -> dbnet -> mstate := mcreate PriorFeedback.
End Rounded.
