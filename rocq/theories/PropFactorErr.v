(** C76: which exception an operation on factors raises, and products and sums in which a common
    variable has one value in one of the two factors. *)
From Verif Require Import Base NDArray Factor Exact Spec FactorSpec FactorProofs FactorErrSpec FactorErr PropFactor.

(** ** Products and sums *)
Theorem C76_product_sum {SO : SetOrder} f g e : good_factor f -> good_factor g ->
  (fmul f g = Err e <-> e = ValueError /\ clash f g) /\ (fadd f g = Err e <-> e = ValueError /\ clash f g).
Proof. intros Gf Gg. split; apply combine_err; assumption. Qed.

(** Otherwise the entry for every choice of positions is the product (sum) of the entries, where a
    factor in which a variable has one value is read at that value.  The names come from the left
    operand, the numbers of positions from the one that has more; they fit together unless the left
    one is the shorter. *)
Theorem C76_stretched {SO : SetOrder} f g : good_factor f -> good_factor g -> ~ clash f g ->
  forall op, op = Qcmult \/ op = Qcplus ->
  exists h, (op = Qcmult -> fmul f g = Ok h) /\ (op = Qcplus -> fadd f g = Ok h) /\ NoDup (vorder h) /\
    (forall v, In v (vorder h) <-> In v (vorder f) \/ In v (vorder g)) /\
    (forall v, In v (vorder f) -> fvalues h v = fvalues f v) /\
    (forall v, ~ In v (vorder f) -> In v (vorder g) -> fvalues h v = fvalues g v) /\
    shape (pot h) = map (positions f g) (vorder h) /\ length (data (pot h)) = prodn (shape (pot h)) /\
    (forall a, (forall v, In v (vorder h) -> a v < positions f g v) ->
       aget (pot h) (map a (vorder h)) = op (entry_at f a) (entry_at g a)) /\
    (good_factor h <-> ~ too_short f g).
Proof.
  intros Gf Gg N op _. destruct (combine_stretched op f g Gf Gg N) as (h & E & N1 & _ & _ & O & VF & VG & S & D & P).
  exists h. split; [intros ->; exact E|]. split; [intros ->; exact E|]. do 7 (split; [assumption|]). exact (stretched_good op f g h Gf Gg E).
Qed.

Example C76_product_example : good_factor fBA /\ good_factor fA3 /\ clash fBA fA3 /\ good_factor fA1 /\ ~ clash fBA fA1 /\ ~ too_short fBA fA1 /\
  ~ clash fA1 fBA /\ too_short fA1 fBA /\ positions fA1 fBA "A" = 2 /\ entry_at fA1 (fun _ => 1) = q 1 10.
Proof.
  split; [exact good_fBA|]. split; [exact good_fA3|]. split. { exists "A". split; [now left|]. split; [now left|]. split; [discriminate|]. split; discriminate. }
  split; [exact good_fA1|]. split. { intros (v & _ & [<-|[]] & _ & _ & X). now apply X. }
  split. { intros (v & _ & [<-|[]] & X & _). discriminate X. } split. { intros (v & [<-|[]] & _ & _ & X & _). now apply X. }
  split; [|split; [reflexivity|apply Qc_is_canon; vm_compute; reflexivity]]. exists "A". split; [now left|]. split; [now left|]. split; [reflexivity|discriminate].
Qed.

(** ** Division and inversion *)
Theorem C76_division {SO : SetOrder} f g e : good_factor f -> good_factor g -> (fdiv f g = Err e <->
  (e = ValueError /\ (~ incl (vorder g) (vorder f) \/ clash f g)) \/ (e = FloatingPointError /\ only_zero g)).
Proof. exact (divide_err f g e). Qed.

Theorem C76_invert f e : good_factor f -> (finvert f = Err e <-> e = FloatingPointError /\ only_zero f).
Proof. exact (invert_err f e). Qed.

Example C76_division_example : good_factor fBA /\ good_factor (trivial 0%Qc) /\ only_zero (trivial 0%Qc) /\ ~ incl (vorder fBA) (vorder fA) /\ ~ only_zero fBA.
Proof.
  split; [exact good_fBA|]. split; [apply good_factorb_ok; vm_compute; reflexivity|]. split; [split; [reflexivity|apply Qc_is_canon; vm_compute; reflexivity]|].
  split; [intros I; destruct (I "B") as [X|[]]; [right; now left|discriminate X]|]. intros [X _]. discriminate X.
Qed.

(** ** Marginalisation, selection, constant factors *)
Theorem C76_marginalize f vs e : good_factor f -> (marginalize f vs = Err e <-> e = ValueError /\ (~ NoDup vs \/ ~ incl vs (vorder f))).
Proof. exact (marginalize_err f vs e). Qed.

Theorem C76_select f sel e : good_factor f -> (get_potential f sel = Err e <->
  e = ValueError /\ exists v l x, In v (vorder f) /\ dget v sel = Some l /\ In x l /\ ~ In x (fvalues f v)).
Proof. exact (select_err f sel e). Qed.

Theorem C76_constant order values e :
  (unit_factor order values = Err e <-> e = KeyError /\ exists v, In v order /\ ~ In v (dkeys values)) /\
  (zero_factor order values = Err e <-> e = KeyError /\ exists v, In v order /\ ~ In v (dkeys values)).
Proof. split; apply const_err. Qed.

(** ** Evidence and samples *)
Theorem C76_evidence v values ev e : as_evidence v values ev None = Err e <-> e = ValueError /\ misfit values ev.
Proof. exact (evidence_err v values ev e). Qed.

(** Samples are read in order, and in each the variables in the order of the dictionary: the first
    fault decides.  Without samples the frequencies are 0/0. *)
Theorem C76_samples vars ss e : NoDup (dkeys vars) -> (forall v l, In (v, l) vars -> NoDup l) -> (from_samples ss vars = Err e <->
  (e = NonFinite /\ ss = []) \/ exists ss1 s ss2, ss = ss1 ++ s :: ss2 /\ (forall s', In s' ss1 -> sample_ok vars s') /\ bad_sample vars s e).
Proof. exact (samples_err vars ss e). Qed.

Example C76_others_example :
  let vars := [("A", ["t"; "f"]); ("B", ["x"; "y"])] in
  NoDup (dkeys vars) /\ (forall v l, In (v, l) vars -> NoDup l) /\ sample_ok vars [("B", "x"); ("A", "t")] /\
  bad_sample vars [("A", "t"); ("B", "z")] ValueError /\ bad_sample vars [("B", "z")] KeyError /\ ~ bad_sample vars [("B", "z")] ValueError /\
  from_samples [[("B", "x"); ("A", "t")]; [("B", "z")]; [("A", "t"); ("B", "z")]] vars = Err KeyError /\
  misfit ["t"; "f"] (Soft [1%Qc]) /\ ~ misfit ["t"; "f"] (Hard "f") /\ unit_factor ["A"; "C"] vars = Err KeyError /\
  get_potential fBA [("A", ["t"; "u"])] = Err ValueError /\ marginalize fBA ["A"; "A"] = Err ValueError.
Proof.
  cbv zeta. split; [apply nodup_s_spec; reflexivity|]. split.
  { intros v l [X|[X|[]]]; injection X as <- <-; apply nodup_s_spec; reflexivity. }
  split. { intros v l [X|[X|[]]]; injection X as <- <-; eexists; (split; [reflexivity|cbn; tauto]). }
  split. { exists [("A", ["t"; "f"])], "B", ["x"; "y"], []. split; [reflexivity|]. split.
    - intros v l [X|[]]. injection X as <- <-. exists "t". split; [reflexivity|now left].
    - right. split; [reflexivity|]. exists "z". split; [reflexivity|]. intros [X|[X|[]]]; discriminate X. }
  split. { exists [], "A", ["t"; "f"], [("B", ["x"; "y"])]. split; [reflexivity|]. split; [intros v l []|]. left. split; [reflexivity|]. intros [X|[]]; discriminate X. }
  split. { intros ([|[w m] vars1] & v & l & vars2 & E & OK & F).
    - cbn in E. injection E as <- <- <-. destruct F as [[X _]|[_ (x & X & _)]]; discriminate X.
    - cbn in E. injection E as <- <- E. destruct (OK "A" ["t"; "f"] (or_introl eq_refl)) as (x & X & _). discriminate X. }
  split; [vm_compute; reflexivity|]. split; [discriminate|]. split; [intros N; apply N; right; now left|]. split; [vm_compute; reflexivity|]. split; vm_compute; reflexivity.
Qed.

Print Assumptions C76_product_sum.
Print Assumptions C76_stretched.
Print Assumptions C76_division.
Print Assumptions C76_invert.
Print Assumptions C76_marginalize.
Print Assumptions C76_select.
Print Assumptions C76_constant.
Print Assumptions C76_evidence.
Print Assumptions C76_samples.
