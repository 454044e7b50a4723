(** Rounding to the nearest number with 53 significant bits, ties to even: IEEE 754
    double precision with an unbounded exponent.  Two ways of adding. *)
From Verif Require Import Base BaseFacts Rounded.
From Coq Require Import QArith Qround Qpower Lqa Lia.
Local Open Scope Q_scope.

(** Nearest integer, ties to even. *)
Definition near_even (t : Q) : Z :=
  let f := Qfloor t in
  match Qcompare (t - inject_Z f) (1 # 2) with
  | Lt => f
  | Gt => (f + 1)%Z
  | Eq => if Z.even f then f else (f + 1)%Z
  end.

Lemma near_bounds t : t - (1 # 2) <= inject_Z (near_even t) /\ inject_Z (near_even t) <= t + (1 # 2).
Proof.
  unfold near_even. assert (A := Qfloor_le t). assert (B := Qlt_floor t). rewrite inject_Z_plus in B. change (inject_Z 1) with 1 in B. set (f := Qfloor t) in *.
  destruct (Qcompare (t - inject_Z f) (1 # 2)) eqn:E.
  - apply Qeq_alt in E. destruct (Z.even f); [|rewrite inject_Z_plus; change (inject_Z 1) with 1]; split; lra.
  - apply Qlt_alt in E. split; lra.
  - apply Qgt_alt in E. rewrite inject_Z_plus. change (inject_Z 1) with 1. split; lra.
Qed.

Lemma near_floor t : (Qfloor t <= near_even t <= Qfloor t + 1)%Z.
Proof. unfold near_even. destruct (Qcompare _ _); [destruct (Z.even _)| |]; lia. Qed.

Lemma near_mono s t : s <= t -> (near_even s <= near_even t)%Z.
Proof.
  intros H. assert (F := Qfloor_resp_le _ _ H). assert (S := near_floor s). assert (T := near_floor t).
  destruct (Z.eq_dec (Qfloor s) (Qfloor t)) as [E|E]; [|lia]. unfold near_even. rewrite E.
  assert (D : s - inject_Z (Qfloor t) <= t - inject_Z (Qfloor t)) by lra.
  destruct (Qcompare (s - inject_Z (Qfloor t)) (1 # 2)) eqn:E1, (Qcompare (t - inject_Z (Qfloor t)) (1 # 2)) eqn:E2;
    first [apply Qeq_alt in E1|apply Qlt_alt in E1|apply Qgt_alt in E1]; first [apply Qeq_alt in E2|apply Qlt_alt in E2|apply Qgt_alt in E2];
    try (destruct (Z.even (Qfloor t)); lia); exfalso; lra.
Qed.

Lemma near_comp s t : s == t -> near_even s = near_even t.
Proof. intros H. assert (s <= t) by lra. assert (t <= s) by lra. apply Z.le_antisymm; apply near_mono; assumption. Qed.

Lemma near_Z z : near_even (inject_Z z) = z.
Proof.
  unfold near_even. rewrite Qfloor_Z. assert (E : inject_Z z - inject_Z z == 0) by ring.
  destruct (Qcompare (inject_Z z - inject_Z z) (1 # 2)) eqn:C; [|reflexivity|]; [apply Qeq_alt in C|apply Qgt_alt in C]; exfalso; lra.
Qed.

(** Powers of two. *)
Notation two := (2 # 1).
Lemma p2_pos e : 0 < two ^ e.
Proof. apply Qpower_0_lt. reflexivity. Qed.
Lemma p2_plus a c : two ^ (a + c) == two ^ a * two ^ c.
Proof. apply Qpower_plus. discriminate. Qed.
Lemma p2_S e : two ^ (e + 1) == 2 * two ^ e.
Proof. rewrite p2_plus. change (two ^ 1) with two. ring. Qed.
Lemma p2_Z n : (0 <= n)%Z -> two ^ n == inject_Z (2 ^ n).
Proof. intros H. rewrite Zpower_Qpower by exact H. reflexivity. Qed.
Lemma p2_le a c : (a <= c)%Z -> two ^ a <= two ^ c.
Proof.
  intros H. replace c with (a + (c - a))%Z by lia. rewrite p2_plus. assert (1 <= two ^ (c - a)).
  { rewrite p2_Z by lia. change 1 with (inject_Z 1). rewrite <- Zle_Qle. assert (0 < 2 ^ (c - a))%Z by (apply Z.pow_pos_nonneg; lia). lia. }
  assert (P := p2_pos a). nra.
Qed.
Lemma p2_lt_inv a c : two ^ a < two ^ c -> (a < c)%Z.
Proof. intros H. destruct (Z_lt_le_dec a c) as [L|L]; [exact L|]. apply p2_le in L. lra. Qed.

(** The exponent: 2^e <= x < 2^(e+1). *)
Definition expo (x : Q) : Z :=
  let e := (Z.log2 (Qnum x) - Z.log2 (Zpos (Qden x)))%Z in
  if Qle_bool (two ^ e) x then e else (e - 1)%Z.

Lemma expo_spec x : 0 < x -> two ^ expo x <= x /\ x < two ^ (expo x + 1).
Proof.
  intros P. destruct x as [n d]. assert (N : (0 < n)%Z) by (unfold Qlt in P; cbn in P; lia). unfold expo. cbn [Qnum Qden].
  assert (A := Z.log2_spec n N). assert (B := Z.log2_spec (Zpos d) eq_refl). assert (A0 := Z.log2_nonneg n). assert (B0 := Z.log2_nonneg (Zpos d)).
  set (a := Z.log2 n) in *. set (c := Z.log2 (Zpos d)) in *. rewrite <- Z.add_1_r in *.
  assert (X : (n # d) == inject_Z n / inject_Z (Zpos d)) by (rewrite Qmake_Qdiv; reflexivity).
  assert (A1 : two ^ a <= inject_Z n) by (rewrite p2_Z by exact A0; rewrite <- Zle_Qle; lia).
  assert (A2 : inject_Z n < two ^ (a + 1)) by (rewrite p2_Z by lia; rewrite <- Zlt_Qlt; lia).
  assert (B1 : two ^ c <= inject_Z (Zpos d)) by (rewrite p2_Z by exact B0; rewrite <- Zle_Qle; lia).
  assert (B2 : inject_Z (Zpos d) < two ^ (c + 1)) by (rewrite p2_Z by lia; rewrite <- Zlt_Qlt; lia).
  assert (DP : 0 < inject_Z (Zpos d)) by reflexivity.
  assert (E : (n # d) * inject_Z (Zpos d) == inject_Z n) by (rewrite X; field; lra).
  assert (Ha := p2_pos a). assert (Hc := p2_pos c). assert (He := p2_pos (a - c)).
  assert (EA : two ^ a == two ^ (a - c) * two ^ c) by (rewrite <- p2_plus; replace (a - c + c)%Z with a by lia; reflexivity).
  assert (U : (n # d) < two ^ (a - c + 1)).
  { rewrite p2_S in *. set (x := n # d) in *. set (y := inject_Z (Zpos d)) in *. set (p := two ^ (a - c)) in *. set (q := two ^ c) in *. set (m := inject_Z n) in *.
    destruct (Qlt_le_dec x (2 * p)) as [L|L]; [exact L|]. exfalso. assert (2 * p * y <= x * y) by nra. assert (2 * p * q <= 2 * p * y) by nra. lra. }
  assert (V : two ^ (a - c - 1) < (n # d)).
  { assert (EB : two ^ (a - c) == 2 * two ^ (a - c - 1)) by (rewrite <- p2_S; replace (a - c - 1 + 1)%Z with (a - c)%Z by lia; reflexivity).
    rewrite p2_S in *. assert (Hh := p2_pos (a - c - 1)). set (x := n # d) in *. set (y := inject_Z (Zpos d)) in *. set (p := two ^ (a - c)) in *. set (h := two ^ (a - c - 1)) in *. set (q := two ^ c) in *. set (m := inject_Z n) in *.
    destruct (Qlt_le_dec h x) as [L|L]; [exact L|]. exfalso. assert (x * y <= h * y) by nra. assert (h * y < h * (2 * q)) by nra. nra. }
  destruct (Qle_bool (two ^ (a - c)) (n # d)) eqn:Q.
  - apply Qle_bool_iff in Q. split; [exact Q|exact U].
  - assert (L : (n # d) < two ^ (a - c)). { apply Qnot_le_lt. intros L. apply Qle_bool_iff in L. congruence. }
    replace (a - c - 1 + 1)%Z with (a - c)%Z by lia. split; [apply Qlt_le_weak, V|exact L].
Qed.

Lemma expo_unique x e : two ^ e <= x -> x < two ^ (e + 1) -> expo x = e.
Proof.
  intros A B. assert (P : 0 < x) by (assert (H := p2_pos e); lra). destruct (expo_spec x P) as [C D].
  assert (e < expo x + 1)%Z by (apply p2_lt_inv; lra). assert (expo x < e + 1)%Z by (apply p2_lt_inv; lra). lia.
Qed.

(** Rounding of a positive number to [prec] bits. *)
Section Prec.
Variable prec : Z.
Hypothesis prec_pos : (0 < prec)%Z.
Definition grid (x : Q) : Q := two ^ (expo x - prec + 1).
Definition round_pos (x : Q) : Q := inject_Z (near_even (x / grid x)) * grid x.

Lemma grid_pos x : 0 < grid x.
Proof. apply p2_pos. Qed.

Lemma on_grid x e : expo x = e -> two ^ e == inject_Z (2 ^ (prec - 1)) * grid x /\ two ^ (e + 1) == inject_Z (2 ^ prec) * grid x.
Proof.
  intros <-. unfold grid. split; rewrite <- p2_Z by lia; rewrite <- p2_plus; [replace (prec - 1 + (expo x - prec + 1))%Z with (expo x) by lia|replace (prec + (expo x - prec + 1))%Z with (expo x + 1)%Z by lia]; reflexivity.
Qed.

Lemma div_le x y g : 0 < g -> x <= y -> x / g <= y / g.
Proof. intros G H. apply Qle_shift_div_l; [exact G|]. setoid_replace (x / g * g) with x by (field; lra). exact H. Qed.

Lemma round_binade x : 0 < x -> two ^ expo x <= round_pos x /\ round_pos x <= two ^ (expo x + 1).
Proof.
  intros P. destruct (expo_spec x P) as [A B]. destruct (on_grid x _ eq_refl) as [G1 G2]. assert (G := grid_pos x). unfold round_pos. rewrite G1, G2. split.
  - apply Qmult_le_compat_r; [|lra]. rewrite <- Zle_Qle. rewrite <- near_Z at 1. apply near_mono. apply Qle_shift_div_l; [exact G|]. lra.
  - apply Qmult_le_compat_r; [|lra]. rewrite <- Zle_Qle. rewrite <- near_Z. apply near_mono. apply Qle_shift_div_r; [exact G|]. lra.
Qed.

Lemma expo_mono x y : 0 < x -> x <= y -> (expo x <= expo y)%Z.
Proof.
  intros P L. destruct (expo_spec x P) as [A B]. destruct (expo_spec y ltac:(lra)) as [C D]. assert (expo x < expo y + 1)%Z by (apply p2_lt_inv; lra). lia.
Qed.

Lemma round_pos_mono x y : 0 < x -> x <= y -> round_pos x <= round_pos y.
Proof.
  intros P L. assert (E := expo_mono x y P L). destruct (Z.eq_dec (expo x) (expo y)) as [Q|Q].
  - unfold round_pos, grid. rewrite Q. assert (G := p2_pos (expo y - prec + 1)). apply Qmult_le_compat_r; [|lra]. rewrite <- Zle_Qle. apply near_mono, div_le; assumption.
  - apply Qle_trans with (two ^ (expo x + 1)); [apply round_binade, P|]. apply Qle_trans with (two ^ expo y); [apply p2_le; lia|]. apply round_binade. lra.
Qed.

Lemma expo_comp x y : x == y -> 0 < x -> expo x = expo y.
Proof. intros E P. assert (P2 : 0 < y) by lra. destruct (expo_spec y P2) as [A B]. apply expo_unique; lra. Qed.

Lemma round_pos_comp x y : x == y -> 0 < x -> round_pos x == round_pos y.
Proof. intros E P. assert (round_pos x <= round_pos y) by (apply round_pos_mono; lra). assert (round_pos y <= round_pos x) by (apply round_pos_mono; lra). lra. Qed.

Lemma round_grid x z : 0 < x -> x == inject_Z z * grid x -> round_pos x == x.
Proof.
  intros P E. unfold round_pos. assert (G := grid_pos x). assert (Q : x / grid x == inject_Z z) by (rewrite E at 1; field; lra). rewrite (near_comp _ _ Q), near_Z. rewrite E at 2. reflexivity.
Qed.

Lemma round_pos_idem x : 0 < x -> round_pos (round_pos x) == round_pos x.
Proof.
  intros P. destruct (round_binade x P) as [A B]. assert (H0 := p2_pos (expo x)). assert (RP : 0 < round_pos x) by lra.
  destruct (Qlt_le_dec (round_pos x) (two ^ (expo x + 1))) as [L|L].
  - assert (E : expo (round_pos x) = expo x) by (apply expo_unique; assumption). apply (round_grid _ (near_even (x / grid x))); [exact RP|]. unfold grid at 2. rewrite E. reflexivity.
  - assert (Q : round_pos x == two ^ (expo x + 1)) by lra. assert (E : expo (round_pos x) = (expo x + 1)%Z).
    { apply expo_unique; rewrite Q; [apply Qle_refl|]. rewrite (p2_S (expo x + 1)). assert (H := p2_pos (expo x + 1)). lra. }
    apply (round_grid _ (2 ^ (prec - 1))); [exact RP|]. rewrite <- (proj1 (on_grid _ _ E)). exact Q.
Qed.

Definition eps : Q := two ^ (- prec).

Lemma half_grid x : 0 < x -> (1 # 2) * grid x == eps * two ^ expo x.
Proof.
  intros P. unfold eps, grid. rewrite <- p2_plus. replace (expo x - prec + 1)%Z with ((- prec + expo x) + 1)%Z by lia. rewrite p2_S. ring.
Qed.

Lemma round_pos_err x : 0 < x -> round_pos x <= (1 + eps) * x /\ x <= (1 + eps) * round_pos x.
Proof.
  intros P. destruct (expo_spec x P) as [A _]. destruct (round_binade x P) as [B _]. assert (H := half_grid x P). assert (G := grid_pos x). assert (E0 : 0 < eps) by apply p2_pos.
  destruct (near_bounds (x / grid x)) as [N1 N2].
  assert (X : x / grid x * grid x == x) by (field; lra).
  assert (M1 : x - (1 # 2) * grid x <= round_pos x).
  { unfold round_pos. setoid_replace (x - (1 # 2) * grid x) with ((x / grid x - (1 # 2)) * grid x) by (rewrite <- X at 1; ring). apply Qmult_le_compat_r; [exact N1|lra]. }
  assert (M2 : round_pos x <= x + (1 # 2) * grid x).
  { unfold round_pos. setoid_replace (x + (1 # 2) * grid x) with ((x / grid x + (1 # 2)) * grid x) by (rewrite <- X at 1; ring). apply Qmult_le_compat_r; [exact N2|lra]. }
  assert (K1 : eps * two ^ expo x <= eps * x) by (apply Qmult_le_l; assumption). assert (K2 : eps * two ^ expo x <= eps * round_pos x) by (apply Qmult_le_l; assumption). split; lra.
Qed.
End Prec.

(** On canonical fractions, all signs. *)
Definition round_bits (prec : Z) (x : Qc) : Qc :=
  match Qcompare 0 (this x) with
  | Lt => Q2Qc (round_pos prec (this x))
  | Eq => 0%Qc
  | Gt => Qcopp (Q2Qc (round_pos prec (- this x)))
  end.

Lemma this_Q2Qc a : this (Q2Qc a) == a.
Proof. apply Qred_correct. Qed.

Lemma round_bits_pos prec x : 0 < this x -> round_bits prec x = Q2Qc (round_pos prec (this x)).
Proof. intros H. unfold round_bits. assert (E : Qcompare 0 (this x) = Lt) by (apply (proj1 (Qlt_alt 0 (this x))), H). rewrite E. reflexivity. Qed.
Lemma round_bits_zero prec x : this x == 0 -> round_bits prec x = 0%Qc.
Proof. intros H. unfold round_bits. assert (E : Qcompare 0 (this x) = Eq) by (apply (proj1 (Qeq_alt 0 (this x))); lra). rewrite E. reflexivity. Qed.

Section Inst.
Variable prec : Z.
Hypothesis prec_pos : (0 < prec)%Z.

Lemma round_positive x : 0 < this x -> 0 < this (round_bits prec x).
Proof.
  intros P. rewrite round_bits_pos by exact P. rewrite this_Q2Qc. destruct (round_binade prec prec_pos _ P) as [A _]. assert (H := p2_pos (expo (this x))). lra.
Qed.

Lemma rb_mono x y : (0 <= x -> x <= y -> round_bits prec x <= round_bits prec y)%Qc.
Proof.
  intros P L. unfold Qcle in *. cbn [this] in P. destruct (Qlt_le_dec 0 (this x)) as [X|X].
  - rewrite !round_bits_pos by lra. rewrite !this_Q2Qc. apply round_pos_mono; assumption.
  - rewrite (round_bits_zero prec x) by (change (this (Q2Qc 0)) with 0 in P; lra). change (this (Q2Qc 0)) with 0. destruct (Qlt_le_dec 0 (this y)) as [Y|Y]; [apply Qlt_le_weak, round_positive, Y|].
    rewrite (round_bits_zero prec y) by (change (this (Q2Qc 0)) with 0 in P; lra). discriminate.
Qed.

Lemma rb_idem x : (0 <= x)%Qc -> round_bits prec (round_bits prec x) = round_bits prec x.
Proof.
  intros P. unfold Qcle in P. change (this (Q2Qc 0)) with 0 in P. destruct (Qlt_le_dec 0 (this x)) as [X|X].
  - assert (RP := round_positive x X). rewrite (round_bits_pos prec (round_bits prec x)) by exact RP. rewrite (round_bits_pos prec x) in RP |- * by exact X.
    apply Qc_is_canon. rewrite !this_Q2Qc. rewrite this_Q2Qc in RP. etransitivity; [apply round_pos_comp; [exact prec_pos|apply this_Q2Qc|rewrite this_Q2Qc; exact RP]|]. etransitivity; [apply round_pos_idem; assumption|]. symmetry. apply this_Q2Qc.
  - rewrite (round_bits_zero prec x) by lra. apply round_bits_zero. reflexivity.
Qed.

Definition eps_c : Qc := Q2Qc (eps prec).

Lemma rb_err x : (0 <= x)%Qc -> (round_bits prec x <= (1 + eps_c) * x)%Qc /\ (x <= (1 + eps_c) * round_bits prec x)%Qc.
Proof.
  intros P. unfold Qcle in *. change (this (Q2Qc 0)) with 0 in P.
  assert (M : forall y : Qc, this ((1 + eps_c) * y)%Qc == (1 + eps prec) * this y).
  { intros y. unfold Qcmult, Qcplus, eps_c. rewrite this_Q2Qc. rewrite (this_Q2Qc (1 + this (Q2Qc (eps prec)))). rewrite (this_Q2Qc (eps prec)). reflexivity. }
  rewrite (M x), (M (round_bits prec x)). destruct (Qlt_le_dec 0 (this x)) as [X|X].
  - rewrite round_bits_pos by exact X. rewrite (this_Q2Qc (round_pos prec (this x))). apply round_pos_err; assumption.
  - assert (Z : this x == 0) by lra. rewrite (round_bits_zero prec x Z). change (this (Q2Qc 0)) with 0. rewrite Z. split; lra.
Qed.
End Inst.

(** IEEE 754 double precision, exponent unbounded. *)
Lemma p53 : (0 < 53)%Z.
Proof. reflexivity. Qed.
Definition double : Rounding := {|
  rnd := round_bits 53;
  ulp := eps_c 53;
  ulp_nonneg := Qlt_le_weak 0 (this (eps_c 53)) (eq_ind_r (fun q => 0 < q) (p2_pos (-53)) eq_refl);
  rnd_mono := rb_mono 53 p53;
  rnd_idem := rb_idem 53 p53;
  rnd_zero := eq_refl;
  rnd_below := fun x H => proj1 (rb_err 53 p53 x H);
  rnd_above := fun x H => proj2 (rb_err 53 p53 x H)
|}.

(** No rounding at all. *)
Lemma id_below (x : Qc) : (0 <= x -> x <= (1 + 0) * x)%Qc.
Proof. intros _. replace ((1 + 0) * x)%Qc with x by ring. apply Qcle_refl. Qed.
Definition unrounded : Rounding := {|
  rnd := fun x => x; ulp := 0%Qc; ulp_nonneg := Qcle_refl 0; rnd_mono := fun x y _ H => H; rnd_idem := fun x _ => eq_refl; rnd_zero := eq_refl;
  rnd_below := id_below; rnd_above := id_below
|}.

(** ** Ways of adding *)
Local Open Scope nat_scope.
Fixpoint left_tree (m : nat) : stree := match m with O => One 0 | S m' => Both (left_tree m') (One m) end.
Lemma left_leaves m : leaves (left_tree m) = seq 0 (S m).
Proof. induction m as [|m IH]; [reflexivity|]. cbn [left_tree leaves]. rewrite IH. rewrite (seq_S (S m)). reflexivity. Qed.
Lemma left_ok n (tag : list nat) : 0 < n -> Permutation (leaves (left_tree (n - 1))) (seq 0 n).
Proof. intros H. rewrite left_leaves. replace (S (n - 1)) with n by lia. apply Permutation_refl. Qed.
Definition one_by_one : Adding := {| plan := fun n _ => left_tree (n - 1); plan_ok := left_ok |}.

Fixpoint halves (fuel a n : nat) : stree :=
  match fuel with
  | O => One a
  | S f => if Nat.leb n 1 then One a else Both (halves f a (Nat.div n 2)) (halves f (a + Nat.div n 2) (n - Nat.div n 2))
  end.
Lemma halves_leaves f : forall a n, 0 < n -> n <= S f -> leaves (halves f a n) = seq a n.
Proof.
  induction f as [|f IH]; intros a n P L; cbn [halves]; [replace n with 1 by lia; reflexivity|].
  destruct (Nat.leb_spec n 1); [replace n with 1 by lia; reflexivity|]. cbn [leaves].
  assert (0 < Nat.div n 2) by (apply Nat.div_str_pos; lia). assert (Nat.div n 2 < n) by (apply Nat.div_lt; lia).
  rewrite !IH by lia. rewrite <- seq_app. f_equal. lia.
Qed.
Lemma halves_ok n (tag : list nat) : 0 < n -> Permutation (leaves (halves n 0 n)) (seq 0 n).
Proof. intros H. rewrite halves_leaves by lia. apply Permutation_refl. Qed.
Definition pairwise : Adding := {| plan := fun n _ => halves n 0 n; plan_ok := halves_ok |}.
