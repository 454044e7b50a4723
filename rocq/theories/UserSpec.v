(** What a transition model of one's own has to do, and what a chain is.  No
    reference to the code that runs the chains. *)
From Verif Require Import Base NDArray Factor Exact Spec Sampling MCSpec LawSpec.

(** A step: from a state and a position in the draws to another, or an exception. *)
Definition move := state * nat -> res (state * nat).

(** [after f n a r]: [n] steps from [a] end in [r]. *)
Inductive after (f : move) : nat -> state * nat -> res (state * nat) -> Prop :=
| after_none a : after f 0 a (Ok a)
| after_stop n a e : f a = Err e -> after f (S n) a (Err e)
| after_more n a a' r : f a = Ok a' -> after f n a' r -> after f (S n) a r.

(** From a complete state that keeps the evidence the step leads to such a state, or
    raises an exception; [never_stops]: it raises none. *)
Definition minds (b : bn) (ev : state) (f : move) : Prop :=
  forall st k st' k', complete b st -> keeps ev st -> f (st, k) = Ok (st', k') -> complete b st' /\ keeps ev st'.
Definition never_stops (b : bn) (ev : state) (f : move) : Prop :=
  forall st k e, complete b st -> keeps ev st -> f (st, k) <> Err e.

(** The step makes [c] calls of the random module and depends on nothing else of it. *)
Definition draws_only (c : nat) (f : rng -> move) : Prop :=
  forall g g' st k k', (forall i, i < c -> unif g (k + i) = unif g' (k' + i) /\ choose g (k + i) = choose g' (k' + i)) ->
  match f g (st, k), f g' (st, k') with
  | Ok (s, i), Ok (s', i') => s = s' /\ i = k + c /\ i' = k' + c
  | Err e, Err e' => e = e'
  | _, _ => False
  end.

(** A number that depends on the state reached. *)
Definition worth (h : state -> Qc) (r : res (state * nat)) : Qc := match r with Ok (s, _) => h s | Err _ => 0%Qc end.

(** The step leaves the posterior as it is: the mean of any number is the same after it. *)
Definition leaves_posterior (N c : nat) (b : bn) (ev : state) (f : rng -> move) : Prop :=
  forall h, qsum (map (fun x => posterior b (hard ev) x * expectation N c (fun g => worth h (f g (x, 0%nat))))%Qc (worlds b ev)) =
            qsum (map (fun x => posterior b (hard ev) x * h x)%Qc (worlds b ev)).

(** From the states that agree with the evidence the step leads to such states. *)
Definition within_worlds (N c : nat) (b : bn) (ev : state) (f : rng -> move) : Prop :=
  forall x l, In x (worlds b ev) -> In l (streams N c) -> exists y k, f (gen l) (x, 0) = Ok (y, k) /\ In y (worlds b ev).

(** Detailed balance: going from [x] to [y] is as likely as going from [y] to [x]. *)
Definition balanced (N c : nat) (b : bn) (ev : state) (f : rng -> move) : Prop :=
  forall x y, In x (worlds b ev) -> In y (worlds b ev) ->
  (posterior b (hard ev) x * chance N c (fun g => drawn y (f g (x, 0%nat))) =
   posterior b (hard ev) y * chance N c (fun g => drawn x (f g (y, 0%nat))))%Qc.

(** A step that draws once to choose one of two others. *)
Definition chosen (pick : Qc -> nat -> bool) (f f' : rng -> move) : rng -> move :=
  fun g a => if pick (unif g (snd a)) (choose g (snd a)) then f g (fst a, S (snd a)) else f' g (fst a, S (snd a)).

(** The step looks at the values of the network's variables in the state only, not at the order of its keys. *)
Definition reads_values (b : bn) (f : rng -> move) : Prop :=
  forall g x y k, (forall v, In v (bnames b) -> dget v x = dget v y) ->
  match f g (x, k), f g (y, k) with
  | Ok (x', i), Ok (y', j) => (forall v, In v (bnames b) -> dget v x' = dget v y') /\ i = j
  | Err e, Err e' => e = e'
  | _, _ => False
  end.

(** From every state that agrees with the evidence the step leads to every such state with a chance of at least [e]. *)
Definition spreads (N c : nat) (b : bn) (ev : state) (f : rng -> move) (e : Qc) : Prop :=
  forall x y, In x (worlds b ev) -> In y (worlds b ev) -> (e <= chance N c (fun g => drawn y (f g (x, 0%nat))))%Qc.
