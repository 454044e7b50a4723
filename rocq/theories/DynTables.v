(** PriorFeedbackExact and SoftEvidenceExact (dynamic.py:182-322) when memory is short: the
    functions of Dynamic.v with the join trees of TreeTables.v. *)
From Verif Require Import Base NDArray Factor Exact Order JoinTree Node Network Dynamic RoundedDyn RoundedSoftDyn TreeTables.

Section Capped.
Context {SO : SetOrder}.
Variables (m : method) (x : exc) (B : nat).

(** dynamic.py:222-240 and 293-311 [_set_evidence] with limited memory. *)
Definition capped_set_evidence_ (s : mstate) (ev : option evidence) (kw : option bool) : mstate * res unit :=
  match m with
  | PriorFeedback => prior_evidence_by (capped_jointree x B) (capped_reset x B)
      (fun b e t => capped_evidence x B b e (match kw with Some z => z | None => false end) t) s ev
  | SoftEvidence => match kw with
                    | Some _ => (s, Err TypeError)
                    | None => soft_evidence_by (capped_jointree x B) (fun b e t => capped_evidence x B b e true t) s ev
                    end
  end.

(** dynamic.py:242-250 and 313-322 [_unroll] with limited memory. *)
Definition capped_unroll_ (s : mstate) : mstate * res unit :=
  match m with
  | PriorFeedback => prior_unroll_by (capped_tree x B) s
  | SoftEvidence => soft_unroll_by (capped_tree x B) s
  end.

(** dynamic.py:204-220, 275-291 [marginals] with limited memory. *)
Definition capped_dmarginals : mstate -> list string -> mstate * res factor := dmarginals_by (capped_tree x B).

(** dynamic.py:96-146, 204-220, 275-291: one call, with limited memory. *)
Definition capped_mexec (s : mstate) (c : mcall) : mstate * res unit :=
  match c with
  | MEvidence ev kw => seq_calls (capped_set_evidence_ s ev None) (fun s' => (with_flag s' true, Ok tt))
  | MUnroll ev kw =>
      seq_calls (if negb (mflag s) || match ev with Some _ => true | None => false end
                 then capped_set_evidence_ s ev kw else (s, Ok tt))
        (fun s1 => seq_calls (capped_unroll_ s1) (fun s2 => (with_flag s2 false, Ok tt)))
  | MQuery vs => let r := capped_dmarginals s vs in (fst r, match snd r with Ok _ => Ok tt | Err e => Err e end)
  end.

(** A history, exceptions caught, with limited memory.  dynamic.py:96-146, 204-220. *)
Fixpoint capped_mrun (s : mstate) (cs : list mcall) : mstate :=
  match cs with [] => s | c :: cs' => capped_mrun (fst (capped_mexec s c)) cs' end.
End Capped.
