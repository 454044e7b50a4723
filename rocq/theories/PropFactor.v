(** Properties C01-C06, C08, C10, C54: the algebra of factors. *)
From Verif Require Import Base BaseFacts NDArray Factor Exact Spec FactorSpec FactorProofs FactorMismatch Instances.

(** ** Example factors *)
Definition q (n : Z) (d : positive) : Qc := qfrac n d.
Definition fA : factor := mkF (mkArr [2] [q 1 5; q 4 5]) ["A"] [("A", ["t"; "f"])].
Definition fBA : factor :=
  mkF (mkArr [2; 3] [q 1 10; q 2 10; q 3 10; q 9 10; q 8 10; 0%Qc]) ["A"; "B"]
      [("A", ["t"; "f"]); ("B", ["x"; "y"; "z"])].
Definition fCB : factor :=
  mkF (mkArr [2; 3] [q 1 2; q 1 3; q 1 4; q 5 1; q 6 1; q 7 1]) ["C"; "B"]
      [("C", ["c"; "d"]); ("B", ["x"; "y"; "z"])].

Lemma good_fA : good_factor fA. Proof. apply good_factorb_ok. vm_compute. reflexivity. Qed.
Lemma good_fBA : good_factor fBA. Proof. apply good_factorb_ok. vm_compute. reflexivity. Qed.
Lemma good_fCB : good_factor fCB. Proof. apply good_factorb_ok. vm_compute. reflexivity. Qed.
Lemma compat_BA_CB : compatible fBA fCB.
Proof. intros v [<-|[<-|[]]] [H|[H|[]]]; try discriminate; reflexivity. Qed.

(** ** C01 *)
Theorem C01_product_pointwise {SO : SetOrder} f g :
  good_factor f -> good_factor g -> compatible f g ->
  exists h, fmul f g = Ok h /\ good_factor h /\
    (forall v, In v (vorder h) <-> In v (vorder f) \/ In v (vorder g)) /\
    (forall v, In v (vorder f) -> fvalues h v = fvalues f v) /\
    (forall v, In v (vorder g) -> fvalues h v = fvalues g v) /\
    (forall q, legal h q -> potential_at h q = (potential_at f q * potential_at g q)%Qc).
Proof. exact (combine_named Qcmult f g). Qed.

(** The same for the sum ([__add__]). *)
Theorem C01_sum_pointwise {SO : SetOrder} f g :
  good_factor f -> good_factor g -> compatible f g ->
  exists h, fadd f g = Ok h /\ good_factor h /\
    (forall v, In v (vorder h) <-> In v (vorder f) \/ In v (vorder g)) /\
    (forall v, In v (vorder f) -> fvalues h v = fvalues f v) /\
    (forall v, In v (vorder g) -> fvalues h v = fvalues g v) /\
    (forall q, legal h q -> potential_at h q = (potential_at f q + potential_at g q)%Qc).
Proof. exact (combine_named Qcplus f g). Qed.

Example C01_example :
  good_factor fBA /\ good_factor fCB /\ compatible fBA fCB /\
  exists h, @fmul listing_order fBA fCB = Ok h /\ vorder h = ["A"; "B"; "C"] /\
    legal h [("C", "d"); ("B", "y"); ("A", "t")] /\
    potential_at h [("C", "d"); ("B", "y"); ("A", "t")] = q 12 10.
Proof.
  split; [exact good_fBA|]. split; [exact good_fCB|]. split; [exact compat_BA_CB|].
  eexists. split; [vm_compute; reflexivity|]. split; [reflexivity|]. split; [|qc].
  intros v [<-|[<-|[<-|[]]]]; eexists; (split; [reflexivity|vm_compute; tauto]).
Qed.

(** ** C02 *)
Theorem C02_product_commutative {SO : SetOrder} f g :
  good_factor f -> good_factor g -> compatible f g ->
  exists h k, fmul f g = Ok h /\ fmul g f = Ok k /\
    (forall v, In v (vorder h) <-> In v (vorder k)) /\
    forall q, legal h q -> legal k q -> potential_at h q = potential_at k q.
Proof. exact (mul_comm_named f g). Qed.

Theorem C02_product_associative {SO : SetOrder} f g h :
  good_factor f -> good_factor g -> good_factor h ->
  compatible f g -> compatible f h -> compatible g h ->
  exists fg gh l r, fmul f g = Ok fg /\ fmul fg h = Ok l /\ fmul g h = Ok gh /\ fmul f gh = Ok r /\
    (forall v, In v (vorder l) <-> In v (vorder r)) /\
    forall q, legal l q -> potential_at l q = potential_at r q.
Proof. exact (mul_assoc_named f g h). Qed.

Theorem C02_one_neutral {SO : SetOrder} f : good_factor f ->
  fmul (trivial 1%Qc) f = Ok f /\ fmul f (trivial 1%Qc) = Ok f.
Proof. exact (mul_one f). Qed.

Example C02_example :
  good_factor fA /\ good_factor fBA /\ good_factor fCB /\ compatible fA fBA /\ compatible fA fCB /\ compatible fBA fCB /\
  exists h k, @fmul listing_order fBA fCB = Ok h /\ @fmul listing_order fCB fBA = Ok k /\ vorder h <> vorder k.
Proof.
  split; [exact good_fA|]. split; [exact good_fBA|]. split; [exact good_fCB|].
  split; [intros v [<-|[]] _; reflexivity|].
  split; [intros v [<-|[]] [H|[H|[]]]; discriminate|]. split; [exact compat_BA_CB|].
  do 2 eexists. split; [vm_compute; reflexivity|]. split; [vm_compute; reflexivity|]. discriminate.
Qed.

(** ** C03 *)
Theorem C03_marginalize_sums_out f vs : good_factor f -> NoDup vs -> incl vs (vorder f) ->
  exists h, marginalize f vs = Ok h /\ good_factor h /\
    vorder h = filter (fun v => negb (mem v vs)) (vorder f) /\
    (forall v, In v (vorder h) -> fvalues h v = fvalues f v) /\
    (forall q, legal h q -> potential_at h q =
       qsum (map (fun s => potential_at f (s ++ q)) (states (map (fun v => (v, fvalues f v)) vs)))).
Proof. exact (marginalize_named f vs). Qed.

Theorem C03_marginalize_any_order f vs ws : good_factor f -> NoDup vs -> incl vs (vorder f) -> Permutation vs ws ->
  exists h1 h2, marginalize f vs = Ok h1 /\ marginalize f ws = Ok h2 /\ vorder h1 = vorder h2 /\ pot h1 = pot h2.
Proof. exact (marginalize_any_order f vs ws). Qed.

Theorem C03_marginalize_unknown f vs : good_factor f -> (~ NoDup vs \/ ~ incl vs (vorder f)) ->
  marginalize f vs = Err ValueError.
Proof. exact (marginalize_bad f vs). Qed.

Example C03_example : good_factor fBA /\ NoDup ["A"] /\ incl ["A"] (vorder fBA) /\
  exists h, marginalize fBA ["A"] = Ok h /\ potential_at h [("B", "y")] = 1%Qc /\ ~ incl ["C"] (vorder fBA).
Proof.
  split; [exact good_fBA|]. split; [repeat constructor; intros []|].
  split; [intros v [<-|[]]; left; reflexivity|]. eexists. split; [vm_compute; reflexivity|].
  split; [qc|]. intros I. destruct (I "C" (or_introl eq_refl)) as [H|[H|[]]]; discriminate.
Qed.

(** ** C04.  False for a divisor without variables that is zero: [invert] raises
    FloatingPointError (factor.py:268-276 expects ZeroDivisionError). *)
Theorem C04_division_partial {SO : SetOrder} f g : good_factor f -> good_factor g -> compatible f g ->
  incl (vorder g) (vorder f) ->
  (vorder g = [] -> potential_at g [] <> 0%Qc) ->   (* missing: trivial zero divisors *)
  exists h, fdiv f g = Ok h /\ good_factor h /\ (forall v, In v (vorder h) <-> In v (vorder f)) /\
    (forall v, In v (vorder f) -> fvalues h v = fvalues f v) /\
    (forall q, legal h q -> potential_at h q =
       if qeqb (potential_at g q) 0%Qc then 0%Qc else (potential_at f q / potential_at g q)%Qc).
Proof. exact (div_named f g). Qed.

Theorem C04_division_scope_error {SO : SetOrder} f g : good_factor f -> good_factor g -> compatible f g ->
  ~ incl (vorder g) (vorder f) -> fdiv f g = Err ValueError.
Proof. exact (div_scope f g). Qed.

Theorem C04_multiply_then_divide_partial {SO : SetOrder} f g : good_factor f -> good_factor g -> compatible f g ->
  (vorder g = [] -> potential_at g [] <> 0%Qc) ->
  exists p h, fmul f g = Ok p /\ fdiv p g = Ok h /\
    (forall v, In v (vorder h) <-> In v (vorder f) \/ In v (vorder g)) /\
    forall q, legal h q -> potential_at g q <> 0%Qc -> potential_at h q = potential_at f q.
Proof. exact (mul_div f g). Qed.

Theorem C04_trivial_zero_refuted {SO : SetOrder} :
  exists g, good_factor g /\ incl (vorder g) (vorder fA) /\ fdiv fA g = Err FloatingPointError.
Proof.
  exists (trivial 0%Qc). split; [apply good_factorb_ok; vm_compute; reflexivity|].
  split; [intros v []|reflexivity].
Qed.

Example C04_example : good_factor fBA /\ good_factor fA /\ compatible fBA fA /\ incl (vorder fA) (vorder fBA) /\
  exists h, @fdiv listing_order fBA fA = Ok h /\ potential_at h [("B", "x"); ("A", "t")] = q 1 2 /\
  exists h0, @fdiv listing_order fBA fBA = Ok h0 /\ potential_at h0 [("B", "z"); ("A", "f")] = 0%Qc.
Proof.
  split; [exact good_fBA|]. split; [exact good_fA|].
  split; [intros v _ [<-|[]]; reflexivity|]. split; [intros v [<-|[]]; left; reflexivity|].
  eexists. split; [vm_compute; reflexivity|]. split; [qc|].
  eexists. split; [vm_compute; reflexivity|]. qc.
Qed.

(** ** C05 *)
Theorem C05_normalize f : good_factor f ->
  let s := qsum (data (pot f)) in
  vorder (normalize f) = vorder f /\ fvals (normalize f) = fvals f /\
  shape (pot (normalize f)) = shape (pot f) /\
  ((0 < s)%Qc -> data (pot (normalize f)) = map (fun x => x / s)%Qc (data (pot f)) /\
                 qsum (data (pot (normalize f))) = 1%Qc) /\
  (~ (0 < s)%Qc -> normalize f = f).
Proof. exact (normalize_data f). Qed.

Example C05_example : good_factor fCB /\ (0 < qsum (data (pot fCB)))%Qc /\
  qsum (data (pot (normalize fCB))) = 1%Qc.
Proof. split; [exact good_fCB|]. split; [vm_compute; reflexivity|qc]. Qed.

(** ** C06.  The selected sub-table in row-major order lists the potentials of
    all instantiations made of the listed values, in the listed order. *)
Theorem C06_selection f sel : good_factor f -> sel <> [] ->
  (forall v l x, In v (vorder f) -> dget v sel = Some l -> In x l -> In x (fvalues f v)) ->
  exists r, get_potential f sel = Ok r /\
    shape r = filter (fun d => negb (Nat.eqb d 1)) (map (fun v => length (choice f sel v)) (vorder f)) /\
    data r = map (potential_at f) (states (map (fun v => (v, choice f sel v)) (vorder f))).
Proof. exact (get_potential_named f sel). Qed.

Theorem C06_everything f : good_factor f ->
  get_potential f [] = Ok (pot f) /\
  data (pot f) = map (potential_at f) (states (map (fun v => (v, fvalues f v)) (vorder f))).
Proof. exact (get_potential_whole f). Qed.

Theorem C06_unknown_value f sel v l x : good_factor f -> In v (vorder f) -> dget v sel = Some l ->
  In x l -> ~ In x (fvalues f v) -> get_potential f sel = Err ValueError.
Proof. exact (get_potential_bad f sel v l x). Qed.

Example C06_example : good_factor fBA /\
  (exists r, get_potential fBA [("Q", ["?"]); ("B", ["z"; "x"])] = Ok r /\ shape r = [2; 2] /\
     data r = [q 3 10; q 1 10; 0%Qc; q 9 10]) /\
  (exists r, get_potential fBA [("B", ["z"]); ("A", ["t"; "f"])] = Ok r /\ shape r = [2] /\
     data r = [q 3 10; 0%Qc]) /\
  get_potential fBA [("B", ["nope"])] = Err ValueError.
Proof. 
  split; [exact good_fBA|]. split; [|split; [|reflexivity]].
  - eexists. split; [vm_compute; reflexivity|]. split; [reflexivity|qlist].
  - eexists. split; [vm_compute; reflexivity|]. split; [reflexivity|qlist].
Qed.

(** ** C08 *)
Theorem C08_hard_evidence v vals x : NoDup vals -> In x vals ->
  exists f, as_evidence v vals (Hard x) None = Ok f /\ good_factor f /\ vorder f = [v] /\ fvalues f v = vals /\
    forall y, In y vals -> potential_at f [(v, y)] = if String.eqb y x then 1%Qc else 0%Qc.
Proof. exact (evidence_hard v vals x). Qed.

Theorem C08_soft_evidence v vals q : NoDup vals -> length q = length vals ->
  exists f, as_evidence v vals (Soft q) None = Ok f /\ good_factor f /\ vorder f = [v] /\ fvalues f v = vals /\
    data (pot f) = q /\
    forall y, In y vals -> potential_at f [(v, y)] = nth (position y vals) q 0%Qc.
Proof. exact (evidence_soft v vals q). Qed.

Theorem C08_rejected_evidence v vals old :
  (forall x, ~ In x vals -> as_evidence v vals (Hard x) old = Err ValueError) /\
  (forall q, length q <> length vals -> as_evidence v vals (Soft q) old = Err ValueError).
Proof. exact (evidence_errors v vals old). Qed.

Example C08_example : NoDup ["x"; "y"; "z"] /\ In "y" ["x"; "y"; "z"] /\
  exists f, as_evidence "B" ["x"; "y"; "z"] (Hard "y") None = Ok f /\ data (pot f) = [0; 1; 0]%Qc.
Proof.
  split; [apply nodup_s_spec; reflexivity|]. split; [cbn; tauto|]. eexists; split; [vm_compute; reflexivity|]. first [qc | qlist].
Qed.

(** ** C10 *)
Theorem C10_relative_frequencies vars ss : NoDup (dkeys vars) -> (forall v l, In (v, l) vars -> NoDup l) ->
  ss <> [] -> (forall s, In s ss -> sample_ok vars s) ->
  exists f, from_samples ss vars = Ok f /\ good_factor f /\ vorder f = dkeys vars /\ fvals f = vars /\
    qsum (data (pot f)) = 1%Qc /\
    forall q, NoDup (dkeys q) -> (forall v, In v (dkeys q) <-> In v (dkeys vars)) -> legal f q ->
      potential_at f q = (qnat (length (filter (agrees q) ss)) / qnat (length ss))%Qc.
Proof. exact (samples_named vars ss). Qed.

Theorem C10_unknown_value vars ss s v l x : In s ss -> In (v, l) vars -> dget v s = Some x -> ~ In x l ->
  (forall s v l, In s ss -> In (v, l) vars -> In v (dkeys s)) ->
  from_samples ss vars = Err ValueError.
Proof. exact (samples_bad vars ss s v l x). Qed.

Example C10_example :
  let vars := [("A", ["t"; "f"]); ("B", ["x"; "y"])] in
  let ss := [[("A", "t"); ("B", "x")]; [("B", "x"); ("A", "t")]; [("A", "f"); ("B", "x"); ("C", "1")]] in
  NoDup (dkeys vars) /\ (forall s, In s ss -> sample_ok vars s) /\
  exists f, from_samples ss vars = Ok f /\ potential_at f [("A", "t"); ("B", "x")] = q 2 3.
Proof.
  split; [apply nodup_s_spec; reflexivity|]. split.
  - intros s Hs v l Hl. cbn in Hs, Hl.
    destruct Hs as [<-|[<-|[<-|[]]]]; destruct Hl as [Hl|[Hl|[]]]; inversion Hl; subst; eexists;
      (split; [reflexivity|cbn; tauto]).
  - eexists; split; [vm_compute; reflexivity|]. first [qc | qlist].
Qed.

(** ** C54.  Different numbers of values are refused.  Missing: lists of the same
    length and lists of length one are not compared (next theorems). *)
Theorem C54_sizes_partial {SO : SetOrder} f g v : good_factor f -> good_factor g -> In v (vorder f) -> In v (vorder g) ->
  length (fvalues f v) <> length (fvalues g v) -> length (fvalues f v) <> 1 -> length (fvalues g v) <> 1 ->
  fmul f g = Err ValueError /\ fadd f g = Err ValueError.
Proof. intros Gf Gg If Ig N N1 N2. split; exact (combine_clash _ f g v Gf Gg If Ig N N1 N2). Qed.

(** With equal lengths the entries are paired by position. *)
Theorem C54_positions_partial {SO : SetOrder} f g : good_factor f -> good_factor g ->
  (forall v, In v (vorder f) -> In v (vorder g) -> length (fvalues f v) = length (fvalues g v)) ->
  exists h k, fmul f g = Ok h /\ fadd f g = Ok k /\ good_factor h /\ good_factor k /\
    (forall v, In v (vorder h) <-> In v (vorder f) \/ In v (vorder g)) /\ (forall v, In v (vorder k) <-> In v (vorder f) \/ In v (vorder g)) /\
    (forall v, In v (vorder f) -> fvalues h v = fvalues f v /\ fvalues k v = fvalues f v) /\
    (forall v, ~ In v (vorder f) -> In v (vorder g) -> fvalues h v = fvalues g v /\ fvalues k v = fvalues g v) /\
    (forall q, legal h q -> potential_at h q = (potential_at f q * potential_at g (translated f g q))%Qc) /\
    (forall q, legal k q -> potential_at k q = (potential_at f q + potential_at g (translated f g q))%Qc).
Proof.
  intros Gf Gg L. destruct (combine_positions Qcmult f g Gf Gg L) as (h & E & G & O & V & W & P).
  destruct (combine_positions Qcplus f g Gf Gg L) as (h' & E' & G' & O' & V' & W' & P'). exists h, h'.
  do 6 (split; [assumption|]). split; [intros v I; split; [now apply V|now apply V']|]. split; [intros v N I; split; [now apply W|now apply W']|]. now split.
Qed.

Definition fA_swapped : factor := mkF (mkArr [2] [q 1 10; q 9 10]) ["A"] [("A", ["f"; "t"])].
Definition fA3 : factor := mkF (mkArr [3] [q 1 10; q 2 10; q 7 10]) ["A"] [("A", ["t"; "f"; "u"])].
Definition fA1 : factor := mkF (mkArr [1] [q 1 10]) ["A"] [("A", ["t"])].
Lemma good_fA_swapped : good_factor fA_swapped. Proof. apply good_factorb_ok. vm_compute. reflexivity. Qed.
Lemma good_fA3 : good_factor fA3. Proof. apply good_factorb_ok. vm_compute. reflexivity. Qed.
Lemma good_fA1 : good_factor fA1. Proof. apply good_factorb_ok. vm_compute. reflexivity. Qed.

Example C54_example : good_factor fBA /\ good_factor fA3 /\ In "A" (vorder fBA) /\ In "A" (vorder fA3) /\
  length (fvalues fBA "A") <> length (fvalues fA3 "A") /\ length (fvalues fBA "A") <> 1 /\ length (fvalues fA3 "A") <> 1 /\
  (forall v, In v (vorder fBA) -> In v (vorder fA_swapped) -> length (fvalues fBA v) = length (fvalues fA_swapped v)) /\
  translated fBA fA_swapped [("B", "x"); ("A", "t")] = [("B", "x"); ("A", "f")].
Proof.
  split; [exact good_fBA|]. split; [exact good_fA3|]. split; [now left|]. split; [now left|]. split; [discriminate|]. split; [discriminate|].
  split; [discriminate|]. split; [|reflexivity]. intros v [<-|[<-|[]]] [E|[]]; try discriminate; reflexivity.
Qed.

(** The same values in another order: no error, and the entry for t is the product of
    one for t and one for f. *)
Theorem C54_names_refuted : exists f g h q', good_factor f /\ good_factor g /\
  (forall v, In v (vorder f) -> In v (vorder g) -> Permutation (fvalues f v) (fvalues g v)) /\
  (forall SO : SetOrder, fmul f g = Ok h) /\ legal h q' /\ legal f q' /\ legal g q' /\ potential_at h q' <> (potential_at f q' * potential_at g q')%Qc.
Proof.
  exists fA, fA_swapped. eexists. exists [("A", "t")]. split; [exact good_fA|]. split; [exact good_fA_swapped|].
  split; [intros v [<-|[]] _; apply perm_swap|]. split.
  { intros SO. unfold fmul, fcombine. cbn [vorder fA fA_swapped].
    assert (E : sdiff ["A"] ["A"] = []).
    { destruct (sdiff ["A"] ["A"]) as [|x l] eqn:E; [reflexivity|]. exfalso. assert (I : In x (sdiff ["A"] ["A"])) by (rewrite E; now left).
      apply sdiff_spec in I. tauto. }
    rewrite E. cbn [app]. rewrite E. vm_compute. reflexivity. }
  split; [|split; [|split]]; try (intros v [<-|[]]; exists "t"; split; [reflexivity|vm_compute; tauto]).
  intros H. apply (f_equal this) in H. vm_compute in H. discriminate.
Qed.

(** A list with one value is stretched to any length: the table no longer fits the values. *)
Theorem C54_one_value_refuted : exists f g h, good_factor f /\ good_factor g /\ In "A" (vorder f) /\ In "A" (vorder g) /\
  length (fvalues f "A") <> length (fvalues g "A") /\ (forall SO : SetOrder, fmul f g = Ok h) /\ ~ good_factor h.
Proof.
  exists fA1, fA3. eexists. split; [exact good_fA1|]. split; [exact good_fA3|]. split; [now left|]. split; [now left|]. split; [discriminate|]. split.
  { intros SO. unfold fmul, fcombine. cbn [vorder fA1 fA3].
    assert (E : sdiff ["A"] ["A"] = []).
    { destruct (sdiff ["A"] ["A"]) as [|x l] eqn:E; [reflexivity|]. exfalso. assert (I : In x (sdiff ["A"] ["A"])) by (rewrite E; now left).
      apply sdiff_spec in I. tauto. }
    rewrite E. cbn [app]. rewrite E. vm_compute. reflexivity. }
  intros G. assert (H := gf_shape _ G). vm_compute in H. discriminate.
Qed.

Print Assumptions C01_product_pointwise.
Print Assumptions C01_sum_pointwise.
Print Assumptions C02_product_commutative.
Print Assumptions C02_product_associative.
Print Assumptions C02_one_neutral.
Print Assumptions C03_marginalize_sums_out.
Print Assumptions C03_marginalize_any_order.
Print Assumptions C03_marginalize_unknown.
Print Assumptions C04_division_partial.
Print Assumptions C04_division_scope_error.
Print Assumptions C04_multiply_then_divide_partial.
Print Assumptions C04_trivial_zero_refuted.
Print Assumptions C05_normalize.
Print Assumptions C06_selection.
Print Assumptions C06_everything.
Print Assumptions C06_unknown_value.
Print Assumptions C08_hard_evidence.
Print Assumptions C08_soft_evidence.
Print Assumptions C08_rejected_evidence.
Print Assumptions C10_relative_frequencies.
Print Assumptions C10_unknown_value.
Print Assumptions C54_sizes_partial.
Print Assumptions C54_positions_partial.
Print Assumptions C54_names_refuted.
Print Assumptions C54_one_value_refuted.
