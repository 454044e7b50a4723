(** What a dynamic Bayesian network means: sums over all trajectories. *)
From Verif Require Import Base NDArray Factor Exact Spec Order OrderSpec JoinTree TreeSpec Node Network NetSpec Dynamic.

Section Filter.
(** B_0, the 2-TBN and the transitions (v, p): v in a slice is p of the slice
    before. *)
Variables b0 two : bn.
Variable trans : list (string * string).

Definition slice_base (k : nat) : bn := match k with 0 => b0 | S _ => two end.

(** [s] can follow [s']. *)
Definition follows (s s' : dict string) : bool :=
  forallb (fun vp => String.eqb (look s (fst vp)) (look s' (snd vp))) trans.

(** Trajectories of n + 1 slices, the newest state first. *)
Fixpoint paths (n : nat) : list (list (dict string)) :=
  match n with
  | 0 => map (fun s => [s]) (states (bvars b0))
  | S n' => flat_map (fun h => map (fun s => s :: h) (filter (fun s => follows s (hd [] h)) (states (bvars two)))) (paths n')
  end.

(** A state of a later slice, given the slice before: the tables of the 2-TBN,
    except for the variables taken over, and the evidence. *)
Definition step_weight (ev : evidence) (s : dict string) : Qc :=
  (qprod (map (fun n => entry n s) (filter (fun n => negb (mem (dn_name n) (map fst trans))) (bnodes two))) *
   qprod (map (fun n => evidence_weight ev n s) (bnodes two)))%Qc.

(** A trajectory with the evidence of its slices (both newest first). *)
Fixpoint path_weight (evs : list evidence) (h : list (dict string)) : Qc :=
  match evs, h with
  | [ev], [s] => weight b0 ev s
  | ev :: evs', s :: h' => (step_weight ev s * path_weight evs' h')%Qc
  | _, _ => 0%Qc
  end.

(** P(q in the newest slice, evidence) and P(q | evidence so far). *)
Definition filter_mass (evs : list evidence) (q : dict string) : Qc :=
  qsum (map (path_weight evs) (filter (fun h => agrees q (hd [] h)) (paths (length evs - 1)))).
Definition filtered (evs : list evidence) (q : dict string) : Qc :=
  if qeqb (filter_mass evs []) 0%Qc then 0%Qc else (filter_mass evs q / filter_mass evs [])%Qc.

(** P(the variables taken over have the values of s, evidence). *)
Definition link_mass (evs : list evidence) (s : dict string) : Qc :=
  qsum (map (path_weight evs) (filter (fun h => follows s (hd [] h)) (paths (length evs - 1)))).

(** Given the evidence, the variables taken over are independent. *)
Definition factorised (evs : list evidence) : Prop :=
  forall s, In s (states (bvars two)) ->
    (link_mass evs s / filter_mass evs [])%Qc = qprod (map (fun vp => filtered evs [(snd vp, look s (fst vp))]) trans).

(** Evidence for the slices 0, 1, ... (newest first). *)
Fixpoint legal_evs (evs : list evidence) : Prop :=
  match evs with
  | [] => True
  | ev :: evs' => (ev_ok (slice_base (length evs')) ev /\ incl (dkeys ev) (bnames (slice_base (length evs')))) /\ legal_evs evs'
  end.

(** Transitions lead from roots of the 2-TBN to variables with the same values. *)
Record wired : Prop := {
  wi_nodup : NoDup (map fst trans);
  wi_root : forall v p, In (v, p) trans -> exists n, In n (bnodes two) /\ dn_name n = v /\ dn_parents n = [];
  wi_b0 : forall v p, In (v, p) trans -> In p (bnames b0) /\ values_of b0 p = values_of two v;
  wi_two : forall v p, In (v, p) trans -> In p (bnames two) /\ values_of two p = values_of two v
}.
End Filter.

(** Both networks suit the join tree (TreeSpec.v), with its default order. *)
Definition suited (b : bn) : Prop := exists o, order_or_default b None = Ok o /\ suits b o.
Record trackable (b0 two : bn) (trans : list (string * string)) : Prop := {
  tr_b0 : suited b0;
  tr_two : suited two;
  tr_nn0 : nonneg_bn b0;
  tr_nn : nonneg_bn two;
  tr_wired : wired b0 two trans
}.

(** Evidence waiting for the next unroll; [Spoiled] after a set_evidence that
    raised while other evidence was waiting. *)
Inductive waiting := Nothing | Pending (e : evidence) | Spoiled.
Definition spoil (p : waiting) : waiting := match p with Nothing => Nothing | _ => Spoiled end.

(** Keyword arguments that leave evidence as likelihoods. *)
Definition plain (m : method) (kw : option bool) : Prop :=
  match m with PriorFeedback => kw <> Some true | SoftEvidence => kw = None end.

(** Sessions with an inference object.  Beside the state: the evidence of the
    finished slices (newest first), what is waiting, and which evidence history
    the marginals refer to ([None]: none).  [ok done e]: e may be given for the
    slice after [done]. *)
Inductive session {SO : SetOrder} (m : method) (ok : list evidence -> evidence -> Prop) (h : heap) (d : dbnet)
  : mstate -> list evidence -> waiting -> option (list evidence) -> Prop :=
| S_create : session m ok h d (mcreate m h d) [] Nothing None
| S_evidence s done p sh ev kw : session m ok h d s done p sh -> ok done (given ev) ->
    session m ok h d (fst (mexec m s (MEvidence ev kw))) done (Pending (given ev)) (Some (given ev :: done))
| S_unroll s done p sh ev kw : session m ok h d s done p sh -> p = Nothing \/ ev <> None -> plain m kw -> ok done (given ev) ->
    session m ok h d (fst (mexec m s (MUnroll ev kw))) (given ev :: done) Nothing (Some (given ev :: done))
| S_unroll_pending s done e sh kw : session m ok h d s done (Pending e) sh ->
    session m ok h d (fst (mexec m s (MUnroll None kw))) (e :: done) Nothing (Some (e :: done))
| S_query s done p sh Q : session m ok h d s done p sh ->
    session m ok h d (fst (mexec m s (MQuery Q))) done p sh
| S_failed s done p sh ev kw x : session m ok h d s done p sh -> snd (mexec m s (MEvidence ev kw)) = Err x ->
    session m ok h d (fst (mexec m s (MEvidence ev kw))) done (spoil p) None
| S_failed_unroll s done p sh ev kw x : session m ok h d s done p sh -> p = Nothing \/ ev <> None ->
    snd (set_evidence_ m s ev kw) = Err x ->
    session m ok h d (fst (mexec m s (MUnroll ev kw))) done (spoil p) None.

(** Evidence on variables of the slice, with existing values. *)
Definition fitting_evidence (b0 two : bn) (done : list evidence) (e : evidence) : Prop :=
  ev_ok (slice_base b0 two (length done)) e /\ incl (dkeys e) (bnames (slice_base b0 two (length done))).

(** The network objects: names lead to objects of that name (as for every network
    built by the API, NetSpec.v), and transitions lead to discrete nodes. *)
Record objects (h : heap) (d : dbnet) : Prop := {
  ob_b0 : consistent (mkW h (db0 d));
  ob_two : consistent (mkW h (dtwo d));
  ob_discrete : forall v p, In (v, p) (dtrans d) -> exists i n, holds (mkW h (dtwo d)) v i n /\ nkind n = KDiscrete
}.

(** ** For SoftEvidenceExact *)
Definition hard_only (e : evidence) : Prop := forall v x, In (v, x) e -> exists y, x = Hard y.
(** No evidence on variables that are taken over. *)
Definition off_interface (trans : list (string * string)) (done : list evidence) (e : evidence) : Prop :=
  done <> [] -> forall v, In v (dkeys e) -> ~ In v (map fst trans).
