(** Factors as values: what programs that use factors should do. *)
From Verif Require Import Base NDArray Factor FactorHeap.

(** The variables that a call uses must be bound. *)
Definition args (c : fcall) : list nat :=
  match c with
  | CMake _ => []
  | CCopy i | CInvert i | CMarginalize i _ | CNormalize i => [i]
  | CMul i j | CAdd i j | CDiv i j => [i; j]
  end.
Definition bound_in (n : nat) (c : fcall) : Prop := Forall (fun i => i < n) (args c).

(** Every call but [normalize] leaves all factors as they are; [normalize] changes
    its own factor. *)
Definition value_of {SO : SetOrder} (c : fcall) (env : list factor) : res factor :=
  let var i := nth i env (trivial 1) in
  match c with
  | CMake f => Ok f
  | CCopy i => Ok (var i)
  | CMul i j => fmul (var i) (var j)
  | CAdd i j => fadd (var i) (var j)
  | CDiv i j => fdiv (var i) (var j)
  | CInvert i => finvert (var i)
  | CMarginalize i vs => marginalize (var i) vs
  | CNormalize i => Ok (normalize (var i))
  end.
Definition after_call {SO : SetOrder} (c : fcall) (env : list factor) : res (list factor) :=
  let* f := value_of c env in
  Ok (match c with CNormalize i => list_set i f env | _ => env ++ [f] end).

(** A program; an exception ends the call and is caught. *)
Definition outcome {A} (r : res A) : res unit := match r with Ok _ => Ok tt | Err e => Err e end.
Fixpoint run_values {SO : SetOrder} (cs : list fcall) (env : list factor) : list factor * list (res unit) :=
  match cs with
  | [] => (env, [])
  | c :: cs' =>
      let r := after_call c env in
      let (env', os) := run_values cs' (match r with Ok env' => env' | Err _ => env end) in (env', outcome r :: os)
  end.
Fixpoint run_heap {SO : SetOrder} (cs : list fcall) (env : list nat) (m : memory) : memory * list nat * list (res unit) :=
  match cs with
  | [] => (m, env, [])
  | c :: cs' =>
      let (m', r) := call_h c env m in
      match run_heap cs' (match r with Ok env' => env' | Err _ => env end) m' with
      | (m'', env', os) => (m'', env', outcome r :: os)
      end
  end.
Fixpoint well_bound {SO : SetOrder} (cs : list fcall) (env : list factor) : Prop :=
  match cs with
  | [] => True
  | c :: cs' => bound_in (length env) c /\
      well_bound cs' (match after_call c env with Ok env' => env' | Err _ => env end)
  end.

Definition empty_memory : memory := mkM [] [] [] [].
