(** Python's recursion limit in the message passing of FactorTree (/repo/primo2/inference/exact.py). *)
From Verif Require Import Base NDArray Factor Exact JoinTree.

(** exact.py:382-394 [calculate_messages] when at most [limit] calls of pull_messages, or of
    push_messages, can be nested.  Simplified: Python counts all frames (1000 by default), so
    [limit] is what the caller's frames and those of the factor operations leave; an
    exception raised inside a factor operation that just does not fit is taken as raised
    before it.  Everything else as in [JoinTree.calculate_messages]. *)
Definition calculate_messages_within {SO : SetOrder} (limit : nat) (t : jtree) : jtree * res unit :=
  match dkeys (tnodes t) with
  | [] => (t, Ok tt)
  | root :: _ =>
      let r := match pull limit root None t with
               | (t1, Ok _) => match push limit root None t1 with
                               | (t2, Ok _) => (set_valid true t2, Ok tt)
                               | (t2, Err e) => (t2, Err e)
                               end
               | (t1, Err e) => (t1, Err e)
               end in
      match r with
      | (t', Err IndexError) => (t', Ok tt)
      | x => x
      end
  end.

Section With.
Context {SO : SetOrder}.
Variable calc : jtree -> jtree * res unit.

(** exact.py:339-376 [marginals]; [calc] stands for calculate_messages (line 365). *)
Definition tmarginals_with (t : jtree) (variables : list string) : jtree * res factor :=
  let (t', r) := if tvalid t then (t, Ok tt) else calc t in
  match r with
  | Err e => (t', Err e)
  | Ok _ =>
      (t', match find (fun p => subset variables (cvars (snd p))) (tnodes t') with
           | Some (_, c) => let* f := marginalize (cfac c) (sdiff (cvars c) variables) in
                            Ok (normalize f)
           | None => Err ValueError
           end)
  end.

(** exact.py:324-325. *)
Fixpoint old_marginals_with (vs : list string) (t : jtree) : jtree * res (dict (list Qc)) :=
  match vs with
  | [] => (t, Ok [])
  | v :: vs' => match tmarginals_with t [v] with
                | (t1, Err e) => (t1, Err e)
                | (t1, Ok f) => match old_marginals_with vs' t1 with
                                | (t2, Ok d) => (t2, Ok ((v, data (pot f)) :: d))
                                | (t2, Err e) => (t2, Err e)
                                end
                end
  end.

(** exact.py:293-337 [set_evidence]; [calc] stands for calculate_messages (lines 323, 337). *)
Definition set_evidence_with (b : bn) (ev : evidence) (softPosteriors : bool) (t : jtree) : jtree * res unit :=
  match reset_factors b t with                              (* 317 *)
  | (t1, Err e) => (t1, Err e)
  | (t1, Ok _) =>
      let (t2, old) :=
        if softPosteriors then                              (* 320-326 *)
          match calc t1 with
          | (t', Err e) => (t', Err e)
          | (t', Ok _) => match old_marginals_with (dkeys ev) t' with
                          | (t'', Err e) => (t'', Err e)
                          | (t'', Ok d) => match reset_factors b t'' with
                                           | (t3, Ok _) => (t3, Ok d)
                                           | (t3, Err e) => (t3, Err e)
                                           end
                          end
          end
        else (t1, Ok []) in
      match old with
      | Err e => (t2, Err e)
      | Ok d => match each (add_tree_evidence b d) ev t2 with
                | (t3, Ok _) => calc t3                     (* 337 *)
                | (t3, Err e) => (t3, Err e)
                end
      end
  end.
End With.

(** exact.py:339-376 and 293-337 with a recursion limit. *)
Definition tmarginals_within {SO : SetOrder} (limit : nat) : jtree -> list string -> jtree * res factor := tmarginals_with (calculate_messages_within limit).
(** exact.py:293-337 with a recursion limit. *)
Definition set_evidence_within {SO : SetOrder} (limit : nat) : bn -> evidence -> bool -> jtree -> jtree * res unit :=
  set_evidence_with (calculate_messages_within limit).
