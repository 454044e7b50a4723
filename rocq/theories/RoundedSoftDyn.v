(** SoftEvidenceExact (dynamic.py:253-322) in rounded arithmetic.  The functions of
    Dynamic.v with the operations on join trees as arguments; [soft_dyn_by_exact]
    (RoundedSoftDynTop.v) shows that with the exact operations they are those functions.
    No keyword argument is given: _set_evidence does not accept any. *)
From Verif Require Import Base NDArray Factor Exact Order JoinTree Node Network Rounded RoundedTree RoundedSoft Dynamic RoundedDyn.

Section Calls.
Variables (create : bn -> option (list string) -> res jtree) (desired : bn -> evidence -> jtree -> jtree * res unit)
  (query : jtree -> list string -> jtree * res factor).

(** dynamic.py:293-311 [_set_evidence]. *)
Definition soft_evidence_by (s : mstate) (ev : option evidence) : mstate * res unit :=
  seq_calls (match mt s with
             | 0 => new_tree_by create s true
             | 1 => new_tree_by create s false
             | _ => (s, Ok tt)
             end)
    (fun s' => on_tree s' (fun b t => desired b
       (match mt s with
        | 0 => given ev
        | _ => dupdate (given ev) (map (fun p => (fst p, Soft (data (snd p)))) (mtrans s))
        end) t)).

(** dynamic.py:319-321. *)
Definition feed_soft_by (s : mstate) (v p : string) : mstate * res unit :=
  match slice_table_by query s p with
  | (s', Ok a) => (with_trans s' (dset v a (mtrans s')), Ok tt)
  | (s', Err e) => (s', Err e)
  end.

(** dynamic.py:313-322 [_unroll]. *)
Definition soft_unroll_by (s : mstate) : mstate * res unit :=
  seq_calls (feed_all feed_soft_by (dtrans (mdbn s)) (with_trans s [])) (fun s' => (tick s', Ok tt)).

(** dynamic.py:96-117 [set_evidence]. *)
Definition ssset_evidence_by (s : mstate) (ev : option evidence) : mstate * res unit :=
  seq_calls (soft_evidence_by s ev) (fun s' => (with_flag s' true, Ok tt)).

(** dynamic.py:119-146 [unroll]. *)
Definition ssunroll_by (s : mstate) (ev : option evidence) : mstate * res unit :=
  seq_calls (if negb (mflag s) || match ev with Some _ => true | None => false end
             then soft_evidence_by s ev else (s, Ok tt))
    (fun s1 => seq_calls (soft_unroll_by s1) (fun s2 => (with_flag s2 false, Ok tt))).
End Calls.

Section Rounded.
Context {RD : Rounding} {AD : Adding} {SO : SetOrder}.
(** dynamic.py:293-311 in rounded arithmetic. *)
Definition rsoft_evidence : mstate -> option evidence -> mstate * res unit := soft_evidence_by rounded_jointree rounded_posteriors.
(** dynamic.py:275-291 in rounded arithmetic. *)
Definition rsmarginals : mstate -> list string -> mstate * res factor := dmarginals_by rounded_tree.
(** dynamic.py:96-117 in rounded arithmetic. *)
Definition rsset_evidence : mstate -> option evidence -> mstate * res unit := ssset_evidence_by rounded_jointree rounded_posteriors.
(** dynamic.py:119-146 in rounded arithmetic. *)
Definition rsunroll : mstate -> option evidence -> mstate * res unit := ssunroll_by rounded_jointree rounded_posteriors rounded_tree.
(** dynamic.py:262-265 [__init__]: nothing is computed. *)
Definition rscreate : heap -> dbnet -> mstate := mcreate SoftEvidence.
End Rounded.
