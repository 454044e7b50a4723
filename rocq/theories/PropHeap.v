(** Property C45: operations on factors and the objects they write to. *)
From Verif Require Import Base NDArray Factor FactorHeap FactorHeapSpec FactorHeapProof ExampleNets Instances.

(** Factors of a program, in any state that a program can reach, are as if they
    were values: nothing but [normalize] changes a factor, and that only its own.
    The outcomes of the calls are the same, exceptions included. *)
Theorem C45_programs {SO : SetOrder} cs m env os : well_bound cs [] -> run_heap cs [] empty_memory = (m, env, os) ->
  run_values cs [] = (map (factor_of m) env, os) /\ live m env.
Proof.
  intros W E. assert (L : live empty_memory []) by (repeat split; constructor).
  pose proof (run_refines cs [] empty_memory L W) as R. rewrite E in R. destruct R as [L' R]. auto.
Qed.

(** One call: all factors keep their potentials, order and values, also when the
    call fails; and the result shares no array, list or dict with them. *)
Theorem C45_operands {SO : SetOrder} c env m m' r : live m env -> bound_in (length env) c -> (forall i, c <> CNormalize i) ->
  call_h c env m = (m', r) -> map (factor_of m') env = map (factor_of m) env /\
  match r with Ok env' => exists x, env' = env ++ [x] /\ live m' env' | Err _ => live m' env end.
Proof.
  intros L B N E. pose proof (call_refines c env m L B) as R. rewrite E in R. unfold after_call in R.
  assert (S : forall env', r = Ok env' -> exists x, env' = env ++ [x]).
  { intros env' ->. clear R. revert E. destruct c; cbn [call_h]; unfold bind at 1; try (match goal with |- context [match ?h m with _ => _ end] => destruct (h m) as [mm [x|e]] end;
      [unfold done; intros E; injection E as _ <-; exists x; reflexivity|discriminate]).
    destruct (N i eq_refl). }
  destruct (value_of c (map (factor_of m) env)) as [f|e]; cbn [rbind] in R.
  - destruct R as (m1 & env1 & E1 & L1 & G1). injection E1 as -> ->. destruct (S env1 eq_refl) as (x & ->). split; [|exists x; auto].
    rewrite map_app in G1. assert (X : forall g : list factor, map (factor_of m1) env ++ [factor_of m1 x] = g ++ [f] -> map (factor_of m1) env = g).
    { intros g H. apply app_inj_tail in H. apply H. }
    destruct c; try (apply X, G1). destruct (N i eq_refl).
  - destruct R as (m1 & E1 & L1 & G1). injection E1 as -> ->. auto.
Qed.

(** The same for the product with [useOther] is false: the second operand is
    changed, and its order and its values no longer agree. *)
Definition fx : factor := mkF (mkArr [2] [qq 1 4; qq 3 4]) ["x"] [("x", tf)].
Definition fy : factor := mkF (mkArr [3] [qq 1 2; qq 1 4; qq 1 4]) ["y"] [("y", xyz)].
Theorem C45_use_other_refuted : exists (SO : SetOrder) m a b m' r, live m [a; b] /\
  h_combine Qcmult true a b m = (m', Ok r) /\ factor_of m' b <> factor_of m b /\
  order_of m' b = ["y"; "x"] /\ dkeys (vals_of m' b) = ["y"].
Proof.
  exists listing_order. destruct (run_heap (SO := listing_order) [CMake fx; CMake fy] [] empty_memory) as [[m env] os] eqn:E.
  destruct (C45_programs (SO := listing_order) [CMake fx; CMake fy] _ _ _ (conj (Forall_nil _) (conj (Forall_nil _) I)) E) as [_ L].
  vm_compute in E. injection E as Em <- _. rewrite <- Em in L. exists m, 0, 1. rewrite <- Em. do 2 eexists. split; [exact L|].
  split; [vm_compute; reflexivity|]. split; [intros H; apply (f_equal vorder) in H; vm_compute in H; discriminate|]. split; vm_compute; reflexivity.
Qed.

(** [get_potential] with variables returns a new array ... *)
Theorem C45_get_potential_partial m env r vars : live m env -> In r env -> vars <> [] ->
  match get_potential (factor_of m r) vars with
  | Ok a => exists m' v, h_get_potential r vars m = (m', Ok v) /\ arr_of m' v = a /\ map (factor_of m') env = map (factor_of m) env /\
              forall s, In s env -> vbuf (opot (obj m' s)) <> vbuf v
  | Err e => h_get_potential r vars m = (m, Err e)
  end.
Proof.
  intros L H N. assert (V := proj1 L). rewrite Forall_forall in V. pose proof (get_potential_fresh m r vars (V r H) N) as G.
  destruct (get_potential (factor_of m r) vars) as [a|e]; [|exact G]. destruct G as (m' & v & E & X & B & A). exists m', v.
  split; [exact E|]. split; [exact A|]. split; [apply live_extends; auto|]. intros s Hs. rewrite (obj_extends m m' s X (proj1 (V s Hs))).
  destruct (V s Hs) as (_ & VB & _). lia.
Qed.

(** ... without variables it is the factor's own, and writing to it changes the
    factor. *)
Theorem C45_get_potential_refuted : exists m r v f, live m [r] /\ h_get_potential r [] m = (m, Ok v) /\
  factor_of (fst (in_place v f m)) r <> factor_of m r.
Proof.
  destruct (run_heap (SO := listing_order) [CMake fx] [] empty_memory) as [[m env] os] eqn:E.
  destruct (C45_programs (SO := listing_order) [CMake fx] _ _ _ (conj (Forall_nil _) I) E) as [_ L].
  vm_compute in E. injection E as Em <- _. rewrite <- Em in L. exists m, 0. rewrite <- Em. exists (mkV 1 [2] [0; 1]), (fun _ => 0%Qc). split; [exact L|].
  split; [vm_compute; reflexivity|]. intros H. apply (f_equal pot), (f_equal data) in H. vm_compute in H. discriminate.
Qed.

(** A program with products, a quotient, a failing quotient, marginalisation and
    normalisation of a factor that others were made from. *)
Definition program : list fcall :=
  [CMake fx; CMake fy; CMul 0 1; CDiv 2 0; CDiv 0 1; CMarginalize 2 ["x"]; CAdd 2 1; CInvert 0; CCopy 2; CNormalize 6; CNormalize 0].
Example C45_example : well_bound (SO := listing_order) program [] /\
  match run_heap (SO := listing_order) program [] empty_memory with
  | (m, env, os) => os = [Ok tt; Ok tt; Ok tt; Ok tt; Err ValueError; Ok tt; Ok tt; Ok tt; Ok tt; Ok tt; Ok tt] /\ length env = 8 /\
      order_of m (nth 2 env 0) = ["x"; "y"] /\ order_of m (nth 4 env 0) = ["y"] /\
      map this (data (pot_of m (nth 6 env 0))) = map this [qq 3 4; qq 1 4] /\ map this (data (pot_of m (nth 0 env 0))) = map this [qq 1 4; qq 3 4]
  end.
Proof. split; [vm_compute; repeat split; repeat constructor|]. vm_compute. repeat split. Qed.

Print Assumptions C45_programs.
Print Assumptions C45_operands.
Print Assumptions C45_use_other_refuted.
Print Assumptions C45_get_potential_partial.
Print Assumptions C45_get_potential_refuted.
