(** Probabilities of what a sampling program does, by counting: random.random()
    is replaced by N equally spaced numbers of (0,1), random.choice by N equally
    likely positions, independently for every call.  No reference to the sampling
    code. *)
From Verif Require Import Base NDArray Factor Exact Spec Sampling.

(** 1/2N, 3/2N, ..., (2N-1)/2N. *)
Definition grid (N : nat) : list Qc := map (fun j => qnat (2 * j + 1) / qnat (2 * N))%Qc (seq 0 N).

(** The possibilities for one call, and for the first [m] calls. *)
Definition draws (N : nat) : list (Qc * nat) := list_prod (grid N) (seq 0 N).
Fixpoint streams (N m : nat) : list (list (Qc * nat)) :=
  match m with
  | 0 => [[]]
  | S m' => flat_map (fun d => map (cons d) (streams N m')) (draws N)
  end.

(** The generator that makes these draws (and arbitrary ones afterwards). *)
Definition half : Qc := Q2Qc (1 # 2).
Definition gen (l : list (Qc * nat)) : rng :=
  mkRng (fun k => fst (nth k l (half, 0))) (fun k => snd (nth k l (half, 0))).

(** The part of the streams of length [m] for which [P] holds. *)
Definition chance (N m : nat) (P : rng -> bool) : Qc :=
  (qnat (length (filter (fun l => P (gen l)) (streams N m))) / qnat (length (streams N m)))%Qc.

(** The states that agree with the evidence, and the evidence as inference takes it. *)
Definition worlds (b : bn) (ev : dict string) : list (dict string) :=
  filter (agrees ev) (states (bvars b)).
Definition hard (ev : dict string) : evidence := map (fun p => (fst p, Hard (snd p))) ev.

(** Calls of the random module made by one transition step. *)
Definition per_variable (t : transition) : nat := match t with Gibbs => 1 | MetropolisHastings => 2 end.
Definition per_step (t : transition) (full : bool) (vars : list string) : nat :=
  if full then per_variable t * length vars else S (per_variable t).

(** Whether a chain, read one by one, shows the state [y] at position [j]. *)
Definition shows (y : dict string) (j : nat) (r : res (list (dict string))) : bool :=
  match r with
  | Ok l => match nth_error l j with Some st => agrees y st | None => false end
  | Err _ => false
  end.

(** Whether a sample is the state [y]. *)
Definition drawn (y : dict string) (r : res (dict string * nat)) : bool :=
  match r with Ok (s, _) => agrees y s | Err _ => false end.

(** The mean of a number that depends on the draws; what a result says about [q]. *)
Definition expectation (N m : nat) (X : rng -> Qc) : Qc :=
  (qsum (map (fun l => X (gen l)) (streams N m)) / qnat (length (streams N m)))%Qc.
Definition estimate (q : dict string) (r : res factor) : Qc :=
  match r with Ok f => potential_at f q | Err _ => 0%Qc end.

(** The parents of observed variables are observed (in particular: no evidence). *)
Definition upstream (b : bn) (ev : dict string) : Prop :=
  forall n, In n (bnodes b) -> In (dn_name n) (dkeys ev) -> incl (map fst (dn_parents n)) (dkeys ev).

(** The states that agree with the evidence and have positive probability.
    [linked]: a path of such states from one to the other, in which each step
    changes one variable. *)
Definition possible (b : bn) (ev : dict string) : list (dict string) :=
  filter (fun x => qltb 0%Qc (joint b x)) (worlds b ev).
Inductive linked (b : bn) (ev : dict string) : dict string -> dict string -> Prop :=
| linked_here x : linked b ev x x
| linked_step x v a y : In (dset v a x) (possible b ev) -> linked b ev (dset v a x) y -> linked b ev x y.
Definition connected (b : bn) (ev : dict string) : Prop :=
  forall x y, In x (possible b ev) -> In y (possible b ev) -> linked b ev x y.

(** Sampling the unobserved variables from their tables leads to possible states only. *)
Definition starts_possible (b : bn) (ev : dict string) : Prop :=
  forall x, In x (worlds b ev) -> (forall n, In n (bnodes b) -> ~ In (dn_name n) (dkeys ev) -> (0 < entry n x)%Qc) -> (0 < joint b x)%Qc.

(** Tables without zeros. *)
Definition positive_bn (b : bn) : Prop := forall n, In n (bnodes b) -> Forall (fun x => (0 < x)%Qc) (data (dn_cpd n)).

(** Steps after which every state may have been reached: one sweep, or as many
    single updates as there are variables. *)
Definition round (b : bn) (ev : dict string) (full : bool) : nat := if full then 1 else length (free_vars b ev).

(** Further than [delta] away. *)
Definition far (p delta x : Qc) : bool := qltb (x + delta)%Qc p || qltb (p + delta)%Qc x.

Fixpoint power (c : Qc) (n : nat) : Qc := match n with O => 1%Qc | S n' => (c * power c n')%Qc end.

(** [c] tells which possible states are linked; the posterior among the states linked
    to [x]. *)
Definition tells (b : bn) (ev : dict string) (c : dict string -> dict string -> bool) : Prop :=
  forall x y, In x (possible b ev) -> In y (possible b ev) -> (c x y = true <-> linked b ev x y).
Definition local_posterior (b : bn) (ev : dict string) (c : dict string -> dict string -> bool) (x q : dict string) : Qc :=
  let l := filter (c x) (possible b ev) in
  (qsum (map (joint b) (filter (agrees q) l)) / qsum (map (joint b) l))%Qc.

(** The probability that forward sampling gives [y]: the tables of the unobserved variables. *)
Definition start_chance (b : bn) (ev : dict string) (y : dict string) : Qc :=
  qprod (map (fun n => entry n y) (filter (fun n => negb (dmem (dn_name n) ev)) (bnodes b))).

(** The possible state a sample stands for (samples list variables in another order). *)
Definition standing_for (b : bn) (ev s : dict string) : dict string := hd [] (filter (fun y => agrees y s) (possible b ev)).
