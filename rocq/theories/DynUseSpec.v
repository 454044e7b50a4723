(** What every sequence of calls on an object for inference over time leads to. *)
From Verif Require Import Base NDArray Factor Exact Spec Order OrderSpec JoinTree TreeSpec Node Network Dynamic DynSpec ErrSpec TreeErrSpec LeftSpec.

Section Use.
Variables b0 two : bn.
Variable trans : list (string * string).

(** P(p | ev), as a list and as a table. *)
Definition chances (b : bn) (ev : evidence) (p : string) : list Qc := map (fun x => posterior b ev [(p, x)]) (values_of b p).

(** PriorFeedbackExact: B_0, and then the 2-TBN in which the variables that are taken over have the
    probabilities of the slice before.  [evs]: what the slices so far were taken to observe, newest first. *)
Fixpoint believed (evs : list evidence) : bn :=
  match evs with
  | [] => b0
  | ev :: evs' =>
      mkBN (map (fun n => match find (fun vp => String.eqb (fst vp) (dn_name n)) trans with
                          | Some vp => mkN (dn_name n) (dn_values n) (dn_parents n) (dn_pdict n)
                                         (mkArr [length (values_of (believed evs') (snd vp))] (chances (believed evs') ev (snd vp)))
                          | None => n
                          end) (bnodes two)) (border two) (bedges two)
  end.

(** SoftEvidenceExact: the probabilities of the slice before are desired posteriors. *)
Definition links (evs : list evidence) : evidence :=
  match evs with
  | [] => []
  | ev :: evs' => map (fun vp => (fst vp, Soft (chances (slice_base b0 two (length evs')) ev (snd vp)))) trans
  end.

(** [e], with [l] instead wherever both say something. *)
Definition updated (e l : evidence) : evidence :=
  map (fun p => (fst p, match dget (fst p) l with Some x => x | None => snd p end)) e ++
  filter (fun p => negb (mem (fst p) (dkeys e))) l.

(** The network, the evidence, and whether it is read as desired posteriors, for the slice after [evs]. *)
Definition read_net (m : method) (evs : list evidence) : bn :=
  match m with PriorFeedback => believed evs | SoftEvidence => slice_base b0 two (length evs) end.
Definition read_ev (m : method) (evs : list evidence) (ev : option evidence) : evidence :=
  match m with PriorFeedback => given ev | SoftEvidence => updated (given ev) (links evs) end.
Definition read_post (m : method) (kw : option bool) : bool :=
  match m with PriorFeedback => match kw with Some x => x | None => false end | SoftEvidence => true end.

Definition faulty (m : method) (evs : list evidence) (ev : option evidence) (kw : option bool) (x : exc) : Prop :=
  evidence_fault (read_net m evs) (read_post m kw) (read_ev m evs ev) x.
Definition left_by (m : method) (evs : list evidence) (ev : option evidence) (kw : option bool) (ev' : evidence) : Prop :=
  leaves (read_net m evs) (read_post m kw) (read_ev m evs ev) ev'.
End Use.

(** A dict, without negative weights. *)
Definition proper (ev : option evidence) : Prop := NoDup (dkeys (given ev)) /\ weights_ok (given ev).
Definition proper_call (c : mcall) : Prop :=
  match c with MEvidence ev _ | MUnroll ev _ => proper ev | MQuery _ => True end.

(** unroll sets evidence unless evidence is waiting and none is given. *)
Definition sets (waits : bool) (ev : option evidence) : Prop := waits = false \/ ev <> None.
(** SoftEvidenceExact has no keyword arguments. *)
Definition refused (m : method) (kw : option bool) : Prop := m = SoftEvidence /\ kw <> None.

(** Beside the state: what the finished slices were taken to observe (newest first); what the slices up to the
    one that marginals refers to were taken to observe (None: marginals has nothing to refer to); whether the
    next unroll takes over the evidence that is set. *)
Inductive uses {SO : SetOrder} (m : method) (h : heap) (d : dbnet) : mstate -> list evidence -> option (list evidence) -> bool -> Prop :=
| U_create : uses m h d (mcreate m h d) [] None false
| U_evidence s done sh w ev kw ev' : uses m h d s done sh w -> proper ev ->
    let b0 := view (mkW h (db0 d)) in let two := view (mkW h (dtwo d)) in
    (forall x, ~ faulty b0 two (dtrans d) m done ev None x) -> left_by b0 two (dtrans d) m done ev None ev' ->
    uses m h d (fst (mexec m s (MEvidence ev kw))) done (Some (ev' :: done)) true
| U_evidence_raises s done sh w ev kw x ev' : uses m h d s done sh w -> proper ev ->
    let b0 := view (mkW h (db0 d)) in let two := view (mkW h (dtwo d)) in
    faulty b0 two (dtrans d) m done ev None x -> left_by b0 two (dtrans d) m done ev None ev' ->
    uses m h d (fst (mexec m s (MEvidence ev kw))) done (Some (ev' :: done)) w
| U_unroll s done sh w ev kw ev' : uses m h d s done sh w -> proper ev -> sets w ev -> ~ refused m kw ->
    let b0 := view (mkW h (db0 d)) in let two := view (mkW h (dtwo d)) in
    (forall x, ~ faulty b0 two (dtrans d) m done ev kw x) -> left_by b0 two (dtrans d) m done ev kw ev' ->
    uses m h d (fst (mexec m s (MUnroll ev kw))) (ev' :: done) (Some (ev' :: done)) false
| U_unroll_raises s done sh w ev kw x ev' : uses m h d s done sh w -> proper ev -> sets w ev -> ~ refused m kw ->
    let b0 := view (mkW h (db0 d)) in let two := view (mkW h (dtwo d)) in
    faulty b0 two (dtrans d) m done ev kw x -> left_by b0 two (dtrans d) m done ev kw ev' ->
    uses m h d (fst (mexec m s (MUnroll ev kw))) done (Some (ev' :: done)) w
| U_unroll_refused s done sh w ev kw : uses m h d s done sh w -> sets w ev -> refused m kw ->
    uses m h d (fst (mexec m s (MUnroll ev kw))) done sh w
| U_unroll_waiting s done e kw : uses m h d s done (Some (e :: done)) true ->
    uses m h d (fst (mexec m s (MUnroll None kw))) (e :: done) (Some (e :: done)) false
| U_query s done sh w Q : uses m h d s done sh w -> uses m h d (fst (mexec m s (MQuery Q))) done sh w.
