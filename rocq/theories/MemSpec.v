(** Steps of a transition model with a state of its own. *)
From Verif Require Import Base NDArray Factor Exact Spec Sampling MCSpec LawSpec.

(** [passes f n m a m' r]: [n] steps from the state [a] with memory [m] end in [r] with memory [m'];
    the first exception ends them. *)
Inductive passes {M} (f : M -> state * nat -> M * res (state * nat)) : nat -> M -> state * nat -> M -> res (state * nat) -> Prop :=
| passes_none m a : passes f 0 m a m (Ok a)
| passes_stop n m a m' e : f m a = (m', Err e) -> passes f (S n) m a m' (Err e)
| passes_more n m a m1 a1 m' r : f m a = (m1, Ok a1) -> passes f n m1 a1 m' r -> passes f (S n) m a m' r.

(** Whatever the memory, complete states that keep the evidence are followed by such states. *)
Definition minds_always {M} (b : bn) (ev : state) (f : M -> state * nat -> M * res (state * nat)) : Prop :=
  forall m st k m' st' k', complete b st -> keeps ev st -> f m (st, k) = (m', Ok (st', k')) -> complete b st' /\ keeps ev st'.

(** A model that keeps nothing. *)
Definition forgetful {M} (s : rng -> bn -> list string -> bool -> state * nat -> res (state * nat)) :
  rng -> bn -> list string -> bool -> M -> state * nat -> M * res (state * nat) := fun g b vars full m a => (m, s g b vars full a).
