(** Message passing in arithmetic of limited range is that of RoundedTree.v when the range suffices. *)
From Verif Require Import Base BaseFacts NDArray NDArrayFacts SumCalc Factor FactorFacts Exact Order Spec SpecFacts JoinTree HuginPure Hugin JTProof
  Rounded RoundedSpec RoundedProof RoundedTop RoundedTree RoundedTreeProof Ranged RangedSpec RangedProof RangedTree RangedTreeFacts.

From Coq Require Import Field.
Section Trees.
Context {RD : Rounding} {LM : Limits} {IV : Inverting} {AD : Adding} {SO : SetOrder}.
Variables (P : Qc) (b : bn).
Hypothesis P1 : (1 <= P)%Qc.
Notation dom := (values_of b).
Notation amag := (amag P).
Notation fits := (fits P).
Notation near3 := (near3 P dom).
Notation lmul := (mul_with lim).
Notation lmarg := (marg_with lim).
Notation linv := (invert_with lim finite).
Notation lsend := (send_by lmul lmarg linv).
Notation lpull := (pull_by lmul lmarg linv).
Notation lpush := (push_by lmul lmarg linv).
Notation rsend := (send_by rmul rmarg rinvert).
Notation rpull := (pull_by rmul rmarg rinvert).
Notation rpush := (push_by rmul rmarg rinvert).
Notation bound := (fun p s => (power P p * power (1 + 1) s)%Qc).
Notation Z := (preds dom (bnames b)).
Notation W := (sumn (sizes b (bnames b))).

(** Magnitudes of the table of a node, and of an edge. *)
Definition cm (t : jtree) (a : string) (p s : nat) : Prop := forall x, dget a (tnodes t) = Some x -> amag p s (pot (cfac x)).
Definition em (t : jtree) (u v : string) (p s : nat) : Prop := forall d, eget u v (tedges t) = Some d -> amag p s (pot (sfac d)).

Lemma amag_mono p s p' s' a : p <= p' -> s <= s' -> amag p s a -> amag p' s' a.
Proof. intros A B M. eapply Forall_impl; [|exact M]. intros x. apply (mag_mono P P1); assumption. Qed.
Lemma cm_mono t a p s p' s' : p <= p' -> s <= s' -> cm t a p s -> cm t a p' s'.
Proof. intros A B M x Hx. eapply amag_mono; [exact A|exact B|exact (M x Hx)]. Qed.
Lemma em_mono t u v p s p' s' : p <= p' -> s <= s' -> em t u v p s -> em t u v p' s'.
Proof. intros A B M x Hx. eapply amag_mono; [exact A|exact B|exact (M x Hx)]. Qed.

Lemma amag_rng p s a : amag p s a -> Forall (rng (bound p s)) (data a).
Proof. intros M. eapply Forall_impl; [|exact M]. intros x. apply (mag_rng P P1). Qed.

Lemma div_one p s j k f f' g' h : near3 p s j f f' -> near dom k (trivial 1%Qc) g' -> fits p s (j + k + 1) -> fdiv f (trivial 1%Qc) = Ok h ->
  exists h', div_by lmul linv f' g' = Ok h' /\ div_by rmul rinvert f' g' = Ok h' /\ near3 p s (j + k + 2) h h'.
Proof.
  intros N C F E. unfold fdiv in E. unfold div_by. rewrite (near_keys _ _ _ _ (n3_near _ _ _ _ _ _ _ N)), (near_keys _ _ _ _ C). destruct (subset _ _); [|discriminate].
  destruct (finvert (trivial 1%Qc)) as [i|] eqn:EI; cbn [rbind] in E; [|discriminate]. destruct (near_inv _ _ _ _ _ C EI) as (i' & EI' & NI).
  assert (M1 : amag 0 0 (pot (trivial 1%Qc))) by (constructor; [|constructor]; right; cbn; split; discriminate).
  assert (MI : amag 0 0 (pot i)). { cbn in EI. inversion EI; subst. constructor; [|constructor]. right. split; apply qleb_true; vm_compute; reflexivity. }
  assert (F0 : (bound 0%nat 0%nat * power (1 + ulp) k <= top)%Qc) by (assert (X := fits_down P P1 p s (j + k + 1) 0 0 k ltac:(lia) ltac:(lia) ltac:(lia) F); exact X).
  destruct (inv_in b (bound 0 0) k _ _ _ (bound_ge P P1 0 0) C EI (amag_rng _ _ _ M1) F0) as [EQ _]. rewrite EQ, EI'. cbn [rbind].
  assert (N3 : near3 0 0 (k + 1) i i') by (split; assumption).
  destruct (mul3 P P1 dom _ _ _ _ _ _ _ _ _ _ _ N N3 ltac:(eapply (fits_down P P1); [| | |exact F]; lia) E) as (h' & E1 & E2 & NH). exists h'. split; [exact E1|]. split; [exact E2|].
  eapply near3_mono; [exact P1| | | |exact NH]; lia.
Qed.

(** Where a message changes the tree. *)
Lemma send_elsewhere k p t : (forall a, a <> p -> dget a (tnodes (fst (send k p t))) = dget a (tnodes t)) /\
  (forall a d, same_edge a d (k, p) = false -> eget a d (tedges (fst (send k p t))) = eget a d (tedges t)).
Proof.
  unfold send. destruct (rbind _ _) as [[new f]|]; cbn [fst]; [|split; reflexivity]. split.
  - intros a N. rewrite tnodes_set_sfac, dget_set_cfac. destruct (String.eqb_spec a p) as [->|_]; [congruence|reflexivity].
  - intros a d N. rewrite eget_set_sfac, N, tedges_set_cfac. reflexivity.
Qed.

Lemma send_up c s t t' k p t1 pk sk pp sp : tnear b c s t t' -> NoDup (dkeys (tnodes t)) -> send k p t = (t1, Ok tt) -> cm t k pk sk -> cm t p pp sp ->
  (forall d, eget k p (tedges t) = Some d -> sfac d = trivial 1%Qc) -> fits (pk + pp) (sk + sp + Z) (c p + (c k + W + s k p + 3)) ->
  lsend k p t' = rsend k p t' /\ cm t1 p (pk + pp) (sk + sp + Z) /\ em t1 k p pk (sk + Z).
Proof.
  intros [A V N E] ND H CK CP TS F. unfold send, dget_err in H. cbv zeta in H.
  destruct (dget k (tnodes t)) as [ck|] eqn:Ek; cbn [rbind] in H; [|discriminate].
  destruct (eget k p (tedges t)) as [sd|] eqn:Es; cbn [rbind] in H; [|discriminate].
  destruct (marginalize (cfac ck) (sdiff (cvars ck) (svars sd))) as [new|] eqn:Em; cbn [rbind] in H; [|discriminate].
  destruct (dget p (tnodes t)) as [cp|] eqn:Ep; cbn [rbind] in H; [|discriminate].
  destruct (fdiv new (sfac sd)) as [q|] eqn:Ed; cbn [rbind] in H; [|discriminate].
  destruct (fmul (cfac cp) q) as [f|] eqn:Ef; cbn [rbind] in H; [|discriminate]. inversion H; subst t1. clear H.
  destruct (cnear_get _ _ _ _ _ _ N Ek) as (ck' & Ek' & Vk & Nk). destruct (cnear_get _ _ _ _ _ _ N Ep) as (cp' & Ep' & Vp & Np).
  destruct (E _ _ _ Es) as (sd' & Es' & Vs & Ns). rewrite (TS sd eq_refl) in Ed, Ns.
  destruct (margs_all P b P1 (sdiff (cvars ck) (svars sd)) (cfac ck) (cfac ck') pk sk (c k) new) as (new' & Em1 & Em2 & Nn);
    [split; [exact Nk|apply CK, Ek]|apply sdiff_nodup|eapply (fits_down P P1); [| | |exact F]; lia|exact Em|].
  destruct (div_one _ _ _ _ _ _ (sfac sd') _ Nn Ns ltac:(eapply (fits_down P P1); [| | |exact F]; lia) Ed) as (q' & Ed1 & Ed2 & Nq).
  assert (Np3 : near3 pp sp (c p) (cfac cp) (cfac cp')) by (split; [exact Np|apply CP, Ep]).
  destruct (mul3 P P1 dom _ _ _ _ _ _ _ _ _ _ _ Np3 Nq ltac:(eapply (fits_down P P1); [| | |exact F]; lia) Ef) as (f' & Ef1 & Ef2 & Nf).
  split; [|split].
  - unfold send_by, dget_err. rewrite Ek'. cbn [rbind]. rewrite Es'. cbn [rbind]. rewrite Vk, Vs, Em1, Em2. cbn [rbind]. rewrite Ep'. cbn [rbind]. rewrite Ed1, Ed2. cbn [rbind]. rewrite Ef1, Ef2. reflexivity.
  - intros x Hx. rewrite tnodes_set_sfac, dget_set_cfac, eqb_refl_s, Ep in Hx. cbn in Hx. inversion Hx; subst. cbn [cfac]. eapply amag_mono; [| |exact (n3_mag _ _ _ _ _ _ _ Nf)]; lia.
  - intros d Hd. rewrite eget_set_sfac, tedges_set_cfac, Es in Hd. rewrite (proj2 (same_edge_spec k p (k, p)) (or_introl eq_refl)) in Hd. cbn in Hd. inversion Hd; subst. exact (n3_mag _ _ _ _ _ _ _ Nn).
Qed.

Lemma send_down c s t t' k p t1 n z e : tnear b c s t t' -> NoDup (dkeys (tnodes t)) -> send k p t = (t1, Ok tt) -> cm t k n z -> em t k p n e -> cm t1 p n z ->
  fits (n + n) (z + Z + e) (c p + (c k + W + s k p + 3)) -> lsend k p t' = rsend k p t' /\ em t1 k p n (z + Z).
Proof.
  intros [A V N E] ND H CK EK CP F. unfold send, dget_err in H. cbv zeta in H.
  destruct (dget k (tnodes t)) as [ck|] eqn:Ek; cbn [rbind] in H; [|discriminate].
  destruct (eget k p (tedges t)) as [sd|] eqn:Es; cbn [rbind] in H; [|discriminate].
  destruct (marginalize (cfac ck) (sdiff (cvars ck) (svars sd))) as [new|] eqn:Em; cbn [rbind] in H; [|discriminate].
  destruct (dget p (tnodes t)) as [cp|] eqn:Ep; cbn [rbind] in H; [|discriminate].
  destruct (fdiv new (sfac sd)) as [q|] eqn:Ed; cbn [rbind] in H; [|discriminate].
  destruct (fmul (cfac cp) q) as [f|] eqn:Ef; cbn [rbind] in H; [|discriminate]. inversion H; subst t1. clear H.
  destruct (cnear_get _ _ _ _ _ _ N Ek) as (ck' & Ek' & Vk & Nk). destruct (cnear_get _ _ _ _ _ _ N Ep) as (cp' & Ep' & Vp & Np).
  destruct (E _ _ _ Es) as (sd' & Es' & Vs & Ns).
  destruct (margs_all P b P1 (sdiff (cvars ck) (svars sd)) (cfac ck) (cfac ck') n z (c k) new) as (new' & Em1 & Em2 & Nn);
    [split; [exact Nk|apply CK, Ek]|apply sdiff_nodup|eapply (fits_down P P1); [| | |exact F]; lia|exact Em|].
  assert (MF : amag n z (pot f)). { apply (CP (mkC (cvars cp) f)). rewrite tnodes_set_sfac, dget_set_cfac, eqb_refl_s, Ep. reflexivity. }
  assert (FD : (bound n (z + Z)%nat * bound n e * power (1 + ulp) (c k + W + s k p + 1)%nat <= top)%Qc).
  { assert (X : fits (n + n) (z + Z + e) (c k + W + s k p + 1)) by (eapply (fits_down P P1); [| | |exact F]; lia). unfold RangedProof.fits in X. rewrite !(pw_add P n n), (pw_add (1 + 1)%Qc (z + Z) e) in X.
    match goal with |- (?l <= _)%Qc => match type of X with (?r <= _)%Qc => replace l with r by ring end end. exact X. }
  destruct (near_div b _ _ _ _ _ _ _ (n3_near _ _ _ _ _ _ _ Nn) Ns Ed) as (q' & Ed' & Nq).
  destruct (div_in b (bound n (z + Z)) (bound n e) _ _ _ _ _ _ _ (bound_ge P P1 _ _) (bound_ge P P1 _ _) (n3_near _ _ _ _ _ _ _ Nn) Ns Ed (amag_rng _ _ _ (n3_mag _ _ _ _ _ _ _ Nn)) (amag_rng _ _ _ (EK sd Es)) FD) as [DQ _].
  assert (FM : (bound n z * power (1 + ulp) (c p + (c k + W + s k p + 2))%nat <= top)%Qc).
  { assert (X : fits n z (c p + (c k + W + s k p + 2))) by (eapply (fits_down P P1); [| | |exact F]; lia). exact X. }
  assert (MQ := mul_in b (bound n z) _ _ _ _ _ _ _ (bound_ge P P1 _ _) Np Nq Ef (amag_rng _ _ _ MF) FM).
  split.
  - unfold send_by, dget_err. rewrite Ek'. cbn [rbind]. rewrite Es'. cbn [rbind]. rewrite Vk, Vs, Em1, Em2. cbn [rbind]. rewrite Ep'. cbn [rbind]. rewrite DQ, Ed'. cbn [rbind]. rewrite MQ. reflexivity.
  - intros d Hd. rewrite eget_set_sfac, tedges_set_cfac, Es in Hd. rewrite (proj2 (same_edge_spec k p (k, p)) (or_introl eq_refl)) in Hd. cbn in Hd. inversion Hd; subst. exact (n3_mag _ _ _ _ _ _ _ Nn).
Qed.

Lemma frame_of_send k p t : frame t (fst (send k p t)) [p] [k; p].
Proof. unfold send. destruct (rbind _ _) as [[new f]|]; cbn [fst]; [apply frame_send|apply frame_refl]. Qed.

(** *** Towards the root *)
Definition Sz (f : string -> nat) (l : list string) : nat := sumn (map (fun a => f a + Z) l).
Lemma Sz_app f l l' : Sz f (l ++ l') = Sz f l + Sz f l'.
Proof. unfold Sz. rewrite map_app. apply sumn_app. Qed.
Definition Sp (f : string -> nat) (l : list string) : nat := sumn (map f l).
Lemma Sp_app f l l' : Sp f (l ++ l') = Sp f l + Sp f l'.
Proof. unfold Sp. rewrite map_app. apply sumn_app. Qed.
Lemma Sp_in f l a : In a l -> f a <= Sp f l.
Proof. unfold Sp. induction l as [|x l IH]; [intros []|]. cbn. unfold sumn in *. intros [->|H]; [lia|specialize (IH H); lia]. Qed.
Lemma Sz_in f l a : In a l -> f a + Z <= Sz f l.
Proof. intros H. exact (Sp_in (fun a => f a + Z) l a H). Qed.

Definition plain (t : jtree) (p : string) (l : list string) : Prop := forall a d x, touched p l a d -> eget a d (tedges t) = Some x -> sfac x = trivial 1%Qc.
Lemma one_mag p s : amag p s (pot (trivial 1%Qc)).
Proof. apply amag_mono with (p := 0) (s := 0); [lia|lia|]. constructor; [|constructor]. right. cbn. split; discriminate. Qed.

Definition pull_in (x : rtree) : Prop := forall fuel p t t1 t' c s mp ms,
  tnear b c s t t' -> NoDup (dkeys (tnodes t)) -> pull fuel (rkey x) (Some p) t = (t1, Ok tt) ->
  adjok (tadj t) (Some p) x -> NoDup (p :: rkeys x) -> ~ In "" (p :: rkeys x) -> (forall a d, touched p (rkeys x) a d -> s a d = 0) ->
  plain t p (rkeys x) -> (forall a, In a (p :: rkeys x) -> cm t a (mp a) (ms a)) ->
  fits (mp p + Sp mp (rkeys x)) (ms p + Sz ms (rkeys x)) (c p + Sm b c (rkeys x)) ->
  lpull fuel (rkey x) (Some p) t' = rpull fuel (rkey x) (Some p) t' /\
  cm t1 p (mp p + Sp mp (rkeys x)) (ms p + Sz ms (rkeys x)) /\
  (forall a, ~ In a (p :: rkeys x) -> dget a (tnodes t1) = dget a (tnodes t)) /\
  (forall a d, ~ touched p (rkeys x) a d -> eget a d (tedges t1) = eget a d (tedges t)) /\
  (forall a d, touched p (rkeys x) a d -> em t1 a d (Sp mp (rkeys x)) (Sz ms (rkeys x))).

Lemma pull_in_each k cs : Forall pull_in cs -> forall fuel t t1 t' c s mp ms,
  tnear b c s t t' -> NoDup (dkeys (tnodes t)) -> each (fun x => pull fuel x (Some k)) (map rkey cs) t = (t1, Ok tt) ->
  Forall (adjok (tadj t) (Some k)) cs -> NoDup (k :: flat_map rkeys cs) -> ~ In "" (k :: flat_map rkeys cs) -> (forall a d, touched k (flat_map rkeys cs) a d -> s a d = 0) ->
  plain t k (flat_map rkeys cs) -> (forall a, In a (k :: flat_map rkeys cs) -> cm t a (mp a) (ms a)) ->
  fits (mp k + Sp mp (flat_map rkeys cs)) (ms k + Sz ms (flat_map rkeys cs)) (c k + Sm b c (flat_map rkeys cs)) ->
  each (fun x => lpull fuel x (Some k)) (map rkey cs) t' = each (fun x => rpull fuel x (Some k)) (map rkey cs) t' /\
  cm t1 k (mp k + Sp mp (flat_map rkeys cs)) (ms k + Sz ms (flat_map rkeys cs)) /\
  (forall a, ~ In a (k :: flat_map rkeys cs) -> dget a (tnodes t1) = dget a (tnodes t)) /\
  (forall a d, ~ touched k (flat_map rkeys cs) a d -> eget a d (tedges t1) = eget a d (tedges t)) /\
  (forall a d, touched k (flat_map rkeys cs) a d -> em t1 a d (Sp mp (flat_map rkeys cs)) (Sz ms (flat_map rkeys cs))).
Proof.
  induction 1 as [|x cs PX PC IH]; intros fuel t t1 t' c s mp ms TN ND E Ad NK K0 S0 PL CM F; cbn [map each flat_map] in *.
  - inversion E; subst. split; [reflexivity|]. split; [eapply cm_mono; [| |apply CM; left; reflexivity]; lia|]. split; [reflexivity|]. split; [reflexivity|]. intros a d [[[] _]|[[] _]].
  - destruct (pull fuel (rkey x) (Some k) t) as [tm [u|e]] eqn:EP; [|discriminate]. destruct u.
    inversion NK as [|? ? NI NF]; subst. inversion Ad as [|? ? A1 A2]; subst. assert (NDx := NoDup_app_l _ _ NF). assert (NDc := NoDup_app_r _ _ NF).
    assert (DJ : forall y, In y (rkeys x) -> ~ In y (flat_map rkeys cs)) by (intros y Hy; exact (NoDup_app_no _ _ y NF Hy)).
    assert (T1 : forall a d, touched k (rkeys x) a d -> touched k (rkeys x ++ flat_map rkeys cs) a d).
    { intros a d H. eapply touched_incl; [| |exact H]; [intros y Hy; apply in_app_iff; auto|]. intros y [->|Hy]; [left; reflexivity|right; apply in_app_iff; auto]. }
    assert (T2 : forall a d, touched k (flat_map rkeys cs) a d -> touched k (rkeys x ++ flat_map rkeys cs) a d).
    { intros a d H. eapply touched_incl; [| |exact H]; [intros y Hy; apply in_app_iff; auto|]. intros y [->|Hy]; [left; reflexivity|right; apply in_app_iff; auto]. }
    assert (NKx : NoDup (k :: rkeys x)) by (constructor; [intros H; apply NI, in_app_iff; auto|exact NDx]).
    assert (K0x : ~ In "" (k :: rkeys x)) by (intros [H|H]; apply K0; cbn; rewrite in_app_iff; auto).
    rewrite !Sp_app, !Sz_app, !Sm_app in F.
    destruct (pull_all b x fuel k t tm t' c s TN ND EP A1 NKx K0x (fun a d H => S0 a d (T1 a d H))) as (tm' & cm' & sm & EP' & TNm & B1 & B2 & B3 & B4 & B5).
    destruct (PX fuel k t tm t' c s mp ms TN ND EP A1 NKx K0x (fun a d H => S0 a d (T1 a d H)) (fun a d x H => PL a d x (T1 a d H))) as (G1 & G2 & G3 & G4 & G5).
    { intros a Ha. apply CM. destruct Ha as [<-|Ha]; [left; reflexivity|right; apply in_app_iff; auto]. }
    { eapply (fits_down P P1); [| | |exact F]; lia. }
    assert (SK := skel_pull fuel (rkey x) (Some k) t). rewrite EP in SK. cbn [fst] in SK.
    assert (UN : forall a, In a (flat_map rkeys cs) -> cm' a = c a).
    { intros a Ha. apply B3. intros [<-|H]; [apply NI, in_app_iff; auto|exact (DJ a H Ha)]. }
    assert (UT : forall a d, touched k (flat_map rkeys cs) a d -> ~ touched k (rkeys x) a d).
    { assert (NK2 : ~ In k (rkeys x)) by (intros H; apply NI, in_app_iff; auto). assert (NK3 : ~ In k (flat_map rkeys cs)) by (intros H; apply NI, in_app_iff; auto).
      unfold touched. cbn [In]. intros a d [[H1 [<-|H2]]|[H1 [<-|H2]]] [[H3 [H4|H4]]|[H3 [H4|H4]]]; subst; try tauto; try (exact (DJ _ H3 H1)); try (exact (DJ _ H3 H2)); try (exact (DJ _ H4 H1)); try (exact (DJ _ H4 H2)). }
    assert (NKc : NoDup (k :: flat_map rkeys cs)) by (constructor; [intros H; apply NI, in_app_iff; auto|exact NDc]).
    assert (KC : forall a, In a (flat_map rkeys cs) -> a <> k) by (intros a Ha ->; apply NI, in_app_iff; auto).
    assert (SpE : Sp (upd mp k (mp k + Sp mp (rkeys x))) (flat_map rkeys cs) = Sp mp (flat_map rkeys cs)).
    { unfold Sp. f_equal. apply map_ext_in. intros a Ha. unfold upd. destruct (String.eqb_spec a k) as [->|]; [destruct (KC k Ha eq_refl)|reflexivity]. }
    assert (SzE : Sz (upd ms k (ms k + Sz ms (rkeys x))) (flat_map rkeys cs) = Sz ms (flat_map rkeys cs)).
    { unfold Sz. f_equal. apply map_ext_in. intros a Ha. unfold upd. destruct (String.eqb_spec a k) as [->|]; [destruct (KC k Ha eq_refl)|reflexivity]. }
    assert (UK : forall f v, upd f k v k = v) by (intros; unfold upd; rewrite eqb_refl_s; reflexivity).
    destruct (IH fuel tm t1 tm' cm' sm (upd mp k (mp k + Sp mp (rkeys x))) (upd ms k (ms k + Sz ms (rkeys x))) TNm) as (I1 & I2 & I3 & I4 & I5); clear IH.
    { rewrite (skel_keys _ _ SK). exact ND. } { exact E. } { rewrite (skel_adj _ _ SK). exact A2. } { exact NKc. } { intros [H|H]; apply K0; cbn; rewrite in_app_iff; auto. }
    { intros a d H. rewrite B4 by (apply UT, H). apply S0, T2, H. }
    { intros a d y H. rewrite G4 by (apply UT, H). apply PL, T2, H. }
    { intros a [<-|Ha]; [rewrite !UK; exact G2|]. unfold upd. destruct (String.eqb_spec a k) as [->|_]; [destruct (KC k Ha eq_refl)|].
      intros y Hy. rewrite G3 in Hy. - apply (CM a); [right; apply in_app_iff; auto|exact Hy]. - intros [<-|H]; [destruct (KC k Ha eq_refl)|exact (DJ a H Ha)]. }
    { rewrite SpE, SzE, !UK, (Sm_ext b cm' c _ UN). eapply (fits_down P P1); [| | |exact F]; lia. }
    rewrite SpE, SzE, ?UK in *. rewrite !Sp_app, !Sz_app. cbn [map each]. rewrite G1, EP'. split; [exact I1|]. split; [eapply cm_mono; [| |exact I2]; lia|]. split; [|split].
    + intros a Ha. rewrite I3, G3; [reflexivity| |]; intros [<-|H]; apply Ha; cbn; rewrite ?in_app_iff; auto.
    + intros a d Ha. rewrite I4, G4; [reflexivity| |]; intros H; apply Ha; auto.
    + intros a d Ha. destruct (touched_dec k (flat_map rkeys cs) a d) as [Y|Y]; [eapply em_mono; [| |exact (I5 a d Y)]; lia|].
      intros y Hy. rewrite I4 in Hy by exact Y. destruct (touched_dec k (rkeys x) a d) as [X|X]; [eapply amag_mono; [| |exact (G5 a d X y Hy)]; lia|].
      rewrite G4 in Hy by exact X. rewrite (PL a d y Ha Hy). apply one_mag.
Qed.

Lemma pull_in_all x : pull_in x.
Proof.
  induction x as [k cs IH] using rtree_ind'. intros fuel p t t1 t' c s mp ms TN ND E Ad NK P0 S0 PL CM F. destruct fuel as [|fuel]; [discriminate|]. cbn [rkey rkeys] in *.
  cbn [pull pull_by] in *. inversion Ad as [? ? ? Af Ac]; subst. rewrite (tn_adj _ _ _ _ _ TN), Af in *.
  destruct (each (fun x => pull fuel x (Some k)) (map rkey cs) t) as [tm [u|e]] eqn:EE; [|discriminate]. destruct u.
  assert (Es : send k p tm = (t1, Ok tt)) by (destruct p; [exfalso; apply P0; left; reflexivity|exact E]). clear E.
  inversion NK as [|? ? NP NK']; subst. inversion NK' as [|? ? NKC NC]; subst.
  assert (TC : forall a d, touched k (flat_map rkeys cs) a d -> touched p (k :: flat_map rkeys cs) a d).
  { intros a d H. eapply touched_incl; [| |exact H]; [intros y Hy; right; exact Hy|]. intros y Hy. right. exact Hy. }
  assert (K0 : ~ In "" (k :: flat_map rkeys cs)) by (intros H; apply P0; right; exact H).
  assert (PA : Forall (pull_near b) cs) by (apply Forall_forall; intros x _; apply pull_all).
  assert (SPK : Sp mp (k :: flat_map rkeys cs) = mp k + Sp mp (flat_map rkeys cs)) by reflexivity.
  assert (SZK : Sz ms (k :: flat_map rkeys cs) = ms k + Z + Sz ms (flat_map rkeys cs)) by reflexivity.
  assert (SMK : Sm b c (k :: flat_map rkeys cs) = c k + W + 3 + Sm b c (flat_map rkeys cs)) by reflexivity.
  rewrite SPK, SZK in *. rewrite SMK in F.
  destruct (pull_each b k cs PA fuel t tm t' c s TN ND EE Ac NK' K0 (fun a d H => S0 a d (TC a d H))) as (tm' & cm' & sm & EE' & TNm & B1 & B2 & B3 & B4 & B5).
  destruct (pull_in_each k cs IH fuel t tm t' c s mp ms TN ND EE Ac NK' K0 (fun a d H => S0 a d (TC a d H)) (fun a d x H => PL a d x (TC a d H))) as (G1 & G2 & G3 & G4 & G5).
  { intros a Ha. apply CM. right. exact Ha. } { eapply (fits_down P P1); [| | |exact F]; lia. }
  assert (SK : skel tm = skel t).
  { assert (SK := skel_each (fun x => pull fuel x (Some k)) (map rkey cs) t (fun x t0 _ => skel_pull fuel x (Some k) t0)). rewrite EE in SK. exact SK. }
  assert (NDm : NoDup (dkeys (tnodes tm))) by (rewrite (skel_keys _ _ SK); exact ND).
  assert (NTP : ~ touched k (flat_map rkeys cs) k p) by (intros [[H _]|[H _]]; [contradiction|]; apply NP; right; exact H).
  assert (TKP : touched p (k :: flat_map rkeys cs) k p) by (left; cbn; auto).
  assert (SP : sm k p = 0) by (rewrite B4 by exact NTP; apply S0, TKP).
  assert (CP : cm' p = c p) by (apply B3; intros [H|H]; apply NP; [left; exact H|right; exact H]).
  destruct (send_up cm' sm tm tm' k p t1 (mp k + Sp mp (flat_map rkeys cs)) (ms k + Sz ms (flat_map rkeys cs)) (mp p) (ms p) TNm NDm Es G2) as (H1 & H2 & H3).
  { intros y Hy. rewrite G3 in Hy by (intros [H|H]; apply NP; [left; exact H|right; exact H]). apply (CM p); [left; reflexivity|exact Hy]. }
  { intros d Hd. rewrite G4 in Hd by exact NTP. exact (PL k p d TKP Hd). }
  { rewrite SP, CP. eapply (fits_down P P1); [| | |exact F]; lia. }
  rewrite G1, EE'. assert (FR := frame_of_send k p tm). rewrite Es in FR. cbn [fst] in FR. assert (EL := send_elsewhere k p tm). rewrite Es in EL. cbn [fst] in EL. destruct EL as [EL1 EL2].
  split; [destruct p; [exfalso; apply P0; left; reflexivity|exact H1]|]. split; [eapply cm_mono; [| |exact H2]; lia|]. split; [|split].
  - intros a Ha. rewrite EL1; [apply G3; intros H; apply Ha; right; exact H|]. intros ->. apply Ha. left. reflexivity.
  - intros a d Ha. destruct (same_edge a d (k, p)) eqn:SE.
    + exfalso. apply Ha. apply same_edge_spec in SE as [SE|SE]; inversion SE; subst; [left|right]; cbn; auto.
    + rewrite EL2 by exact SE. apply G4. intros H. apply Ha, TC, H.
  - intros a d Ha. destruct (same_edge a d (k, p)) eqn:SE.
    + intros y Hy. assert (Hy' : eget k p (tedges t1) = Some y).
      { rewrite <- Hy. apply same_edge_spec in SE as [SE|SE]; inversion SE; subst; [reflexivity|]. apply eget_sym. }
      eapply amag_mono; [| |exact (H3 y Hy')]; lia.
    + intros y Hy. rewrite EL2 in Hy by exact SE. destruct (touched_dec k (flat_map rkeys cs) a d) as [Y|Y]; [eapply amag_mono; [| |exact (G5 a d Y y Hy)]; lia|].
      rewrite G4 in Hy by exact Y. rewrite (PL a d y Ha Hy). apply one_mag.
Qed.

(** *** Away from the root *)
Definition push_kept (x : rtree) : Prop := forall fuel p t t1, push fuel (rkey x) p t = (t1, Ok tt) -> adjok (tadj t) p x -> NoDup (rkeys x) ->
  (forall a, ~ In a (rkeys x) \/ a = rkey x -> dget a (tnodes t1) = dget a (tnodes t)) /\
  (forall a d, ~ In a (rkeys x) \/ ~ In d (rkeys x) -> eget a d (tedges t1) = eget a d (tedges t)).
Lemma push_kept_each k cs : Forall push_kept cs -> forall fuel t t1,
  each (fun x t => match send k x t with (t', Ok _) => push fuel x (Some k) t' | (t', Err e) => (t', Err e) end) (map rkey cs) t = (t1, Ok tt) ->
  Forall (adjok (tadj t) (Some k)) cs -> NoDup (k :: flat_map rkeys cs) ->
  (forall a, ~ In a (flat_map rkeys cs) -> dget a (tnodes t1) = dget a (tnodes t)) /\
  (forall a d, ~ In a (k :: flat_map rkeys cs) \/ ~ In d (k :: flat_map rkeys cs) -> eget a d (tedges t1) = eget a d (tedges t)).
Proof.
  induction 1 as [|x cs PX PC IH]; intros fuel t t1 E Ad NK; cbn [map each flat_map] in *.
  - inversion E; subst. split; reflexivity.
  - destruct (send k (rkey x) t) as [ts [u|e]] eqn:ES; [|discriminate]. destruct u. destruct (push fuel (rkey x) (Some k) ts) as [tm [u|e]] eqn:EP; [|discriminate]. destruct u.
    inversion NK as [|? ? NI NF]; subst. inversion Ad as [|? ? A1 A2]; subst. assert (NDx := NoDup_app_l _ _ NF). assert (NDc := NoDup_app_r _ _ NF).
    assert (RX := rkey_in x). assert (SK1 := skel_send k (rkey x) t). rewrite ES in SK1. cbn [fst] in SK1.
    destruct (PX fuel (Some k) ts tm EP) as [X1 X2]; [rewrite (skel_adj _ _ SK1); exact A1|exact NDx|].
    assert (SK2 := skel_push fuel (rkey x) (Some k) ts). rewrite EP in SK2. cbn [fst] in SK2. assert (SK : skel tm = skel t) by congruence.
    destruct (IH fuel tm t1 E) as [Y1 Y2]; [rewrite (skel_adj _ _ SK); exact A2|constructor; [intros H; apply NI, in_app_iff; auto|exact NDc]|].
    assert (EL := send_elsewhere k (rkey x) t). rewrite ES in EL. cbn [fst] in EL. destruct EL as [EL1 EL2]. split.
    + intros a Ha. rewrite Y1, X1, EL1; [reflexivity| | |]; [intros ->|left; intros H|intros H]; apply Ha, in_app_iff; auto.
    + intros a d Ha. rewrite Y2, X2, EL2; [reflexivity| | |].
      * destruct (same_edge a d (k, rkey x)) eqn:SE; [|reflexivity]. exfalso. apply same_edge_spec in SE as [SE|SE]; inversion SE; subst; cbn in Ha; rewrite !in_app_iff in Ha; tauto.
      * cbn in Ha; rewrite !in_app_iff in Ha; tauto.
      * cbn in Ha |- *; rewrite !in_app_iff in Ha; tauto.
Qed.
Lemma push_kept_all x : push_kept x.
Proof.
  induction x as [k cs IH] using rtree_ind'. intros fuel p t t1 E Ad NK. destruct fuel as [|fuel]; [discriminate|]. cbn [rkey rkeys] in *.
  cbn [push] in E. inversion Ad as [? ? ? Af Ac]; subst. rewrite Af in E. destruct (push_kept_each k cs IH fuel t t1 E Ac NK) as [X1 X2]. split; [|exact X2].
  inversion NK; subst. intros a [Ha| ->]; apply X1; [intros H; apply Ha; right; exact H|assumption].
Qed.

Definition push_in (x : rtree) : Prop := forall fuel p t t1 t' c s D T n z e,
  tnear b c s t t' -> NoDup (dkeys (tnodes t)) -> push fuel (rkey x) p t = (t1, Ok tt) -> adjok (tadj t) p x -> NoDup (rkeys x) ->
  c (rkey x) <= D -> (forall a, In a (rkeys x) -> a <> rkey x -> c a <= T) -> (forall a d, In a (rkeys x) -> In d (rkeys x) -> s a d <= T) ->
  (forall a, In a (rkeys x) -> cm t1 a n z) -> (forall a d, In a (rkeys x) -> In d (rkeys x) -> em t a d n e) ->
  fits (n + n) (z + Z + e) (D + length (rkeys x) * (2 * T + W + 3)) ->
  lpush fuel (rkey x) p t' = rpush fuel (rkey x) p t'.

Lemma push_in_each k D T n z e cs : Forall push_in cs -> forall fuel t t1 t' c s,
  tnear b c s t t' -> NoDup (dkeys (tnodes t)) ->
  each (fun x t => match send k x t with (t', Ok _) => push fuel x (Some k) t' | (t', Err e) => (t', Err e) end) (map rkey cs) t = (t1, Ok tt) ->
  Forall (adjok (tadj t) (Some k)) cs -> NoDup (k :: flat_map rkeys cs) ->
  c k <= D -> (forall a, In a (flat_map rkeys cs) -> c a <= T) -> (forall a d, In a (k :: flat_map rkeys cs) -> In d (k :: flat_map rkeys cs) -> s a d <= T) ->
  (forall a, In a (k :: flat_map rkeys cs) -> cm t1 a n z) -> (forall a d, In a (k :: flat_map rkeys cs) -> In d (k :: flat_map rkeys cs) -> em t a d n e) ->
  fits (n + n) (z + Z + e) (D + (1 + length (flat_map rkeys cs)) * (2 * T + W + 3)) ->
  each (fun x t => match lsend k x t with (t', Ok _) => lpush fuel x (Some k) t' | (t', Err e) => (t', Err e) end) (map rkey cs) t' =
  each (fun x t => match rsend k x t with (t', Ok _) => rpush fuel x (Some k) t' | (t', Err e) => (t', Err e) end) (map rkey cs) t'.
Proof.
  induction 1 as [|x cs PX PC IH]; intros fuel t t1 t' c s TN ND E Ad NK CK CT ST CM EM F; cbn [map each flat_map] in *; [reflexivity|].
  destruct (send k (rkey x) t) as [ts [u|er]] eqn:ES; [|discriminate]. destruct u. destruct (push fuel (rkey x) (Some k) ts) as [tm [u|er]] eqn:EP; [|discriminate]. destruct u.
  inversion NK as [|? ? NI NF]; subst. inversion Ad as [|? ? A1 A2]; subst. assert (NDx := NoDup_app_l _ _ NF). assert (NDc := NoDup_app_r _ _ NF).
  assert (DJ : forall y, In y (rkeys x) -> ~ In y (flat_map rkeys cs)) by (intros y Hy; exact (NoDup_app_no _ _ y NF Hy)).
  assert (NX : ~ In k (rkeys x)) by (intros H; apply NI, in_app_iff; auto). assert (NC : ~ In k (flat_map rkeys cs)) by (intros H; apply NI, in_app_iff; auto).
  assert (RX := rkey_in x). assert (NKC : NoDup (k :: flat_map rkeys cs)) by (constructor; assumption).
  destruct (send_near b c s t t' k (rkey x) ts TN ND ES) as (ts' & ES' & TNs).
  assert (SK1 := skel_send k (rkey x) t). rewrite ES in SK1. cbn [fst] in SK1.
  assert (EL := send_elsewhere k (rkey x) t). rewrite ES in EL. cbn [fst] in EL. destruct EL as [EL1 EL2].
  assert (NDs : NoDup (dkeys (tnodes ts))) by (rewrite (skel_keys _ _ SK1); exact ND).
  assert (A1s : adjok (tadj ts) (Some k) x) by (rewrite (skel_adj _ _ SK1); exact A1).
  destruct (push_kept_all x fuel (Some k) ts tm EP A1s NDx) as [KX1 KX2].
  assert (SK2 := skel_push fuel (rkey x) (Some k) ts). rewrite EP in SK2. cbn [fst] in SK2. assert (SK : skel tm = skel t) by congruence.
  assert (A2m : Forall (adjok (tadj tm) (Some k)) cs) by (rewrite (skel_adj _ _ SK); exact A2).
  assert (KC := push_kept_each k cs (proj2 (Forall_forall _ _) (fun x _ => push_kept_all x)) fuel tm t1 E A2m NKC). destruct KC as [KC1 KC2].
  assert (CX : c (rkey x) <= T) by (apply CT, in_app_iff; auto). assert (SX : s k (rkey x) <= T) by (apply ST; cbn; rewrite ?in_app_iff; auto).
  rewrite app_length in F.
  destruct (send_down c s t t' k (rkey x) ts n z e TN ND ES) as [SE1 SE2].
  { intros y Hy. apply (CM k (or_introl eq_refl)). rewrite KC1 by exact NC. rewrite KX1 by (left; exact NX). rewrite EL1; [exact Hy|]. intros ->. contradiction. }
  { apply EM; cbn; rewrite ?in_app_iff; auto. }
  { intros y Hy. apply (CM (rkey x)); [right; apply in_app_iff; auto|]. rewrite KC1 by (apply DJ; exact RX). rewrite KX1 by (right; reflexivity). exact Hy. }
  { eapply (fits_down P P1); [| | |exact F]; nia. }
  rewrite SE1, ES'.
  assert (Ux : forall a, In a (rkeys x) -> a <> rkey x -> upd c (rkey x) (c (rkey x) + (c k + W + s k (rkey x) + 3)) a <= T).
  { intros a Ha Na. unfold upd. destruct (String.eqb_spec a (rkey x)) as [->|_]; [congruence|]. apply CT, in_app_iff; auto. }
  assert (Us : forall a d, In a (rkeys x) -> In d (rkeys x) -> upd2 s k (rkey x) (c k + W) a d <= T).
  { intros a d Ha Hd. unfold upd2. destruct (same_edge a d (k, rkey x)) eqn:SE; [|apply ST; right; apply in_app_iff; auto].
    apply same_edge_spec in SE as [SE|SE]; inversion SE; subst; contradiction. }
  assert (Uk : upd c (rkey x) (c (rkey x) + (c k + W + s k (rkey x) + 3)) (rkey x) <= D + (2 * T + W + 3)) by (unfold upd; rewrite eqb_refl_s; lia).
  destruct (push_all b x fuel (Some k) ts tm ts' _ _ (D + (2 * T + W + 3)) T TNs NDs EP A1s NDx Uk Ux Us) as (tm' & cm' & sm & EP' & TNm & B1 & B2 & B3 & B4).
  assert (PP := PX fuel (Some k) ts tm ts' _ _ (D + (2 * T + W + 3)) T n z e TNs NDs EP A1s NDx Uk Ux Us). rewrite PP; clear PP.
  - rewrite EP'.
    assert (CO : forall a, ~ In a (rkeys x) -> cm' a = c a).
    { intros a Ha. rewrite B3 by exact Ha. unfold upd. destruct (String.eqb_spec a (rkey x)) as [->|_]; [contradiction|reflexivity]. }
    assert (SO' : forall a d, ~ In a (rkeys x) /\ ~ In d (rkeys x) -> sm a d = s a d).
    { intros a d [Ha Hd]. rewrite B4 by auto. unfold upd2. destruct (same_edge a d (k, rkey x)) eqn:SE; [|reflexivity]. apply same_edge_spec in SE as [SE|SE]; inversion SE; subst; contradiction. }
    assert (NOT : forall a d, In a (k :: flat_map rkeys cs) -> In d (k :: flat_map rkeys cs) -> ~ In a (rkeys x) /\ ~ In d (rkeys x)).
    { intros a d Ha Hd. split; intros H; [destruct Ha as [<-|Ha]|destruct Hd as [<-|Hd]]; try contradiction; eapply DJ; eassumption. }
    assert (IN : forall a, In a (k :: flat_map rkeys cs) -> In a (k :: rkeys x ++ flat_map rkeys cs)) by (intros a [H|H]; [left; exact H|right; apply in_app_iff; auto]).
    apply (IH fuel tm t1 tm' cm' sm TNm); clear IH.
    + rewrite (skel_keys _ _ SK). exact ND.
    + exact E.
    + exact A2m.
    + exact NKC.
    + rewrite CO by exact NX. exact CK.
    + intros a Ha. rewrite CO; [apply CT, in_app_iff; auto|]. intros H. exact (DJ a H Ha).
    + intros a d Ha Hd. rewrite SO' by (apply NOT; assumption). apply ST; apply IN; assumption.
    + intros a Ha. apply CM, IN, Ha.
    + intros a d Ha Hd y Hy. destruct (NOT a d Ha Hd) as [N1 N2]. rewrite KX2 in Hy by auto. rewrite EL2 in Hy.
      * apply (EM a d (IN a Ha) (IN d Hd)), Hy.
      * destruct (same_edge a d (k, rkey x)) eqn:SE; [|reflexivity]. apply same_edge_spec in SE as [SE|SE]; inversion SE; subst; contradiction.
    + eapply (fits_down P P1); [| | |exact F]; nia.
  - intros a Ha y Hy. apply (CM a); [right; apply in_app_iff; auto|]. rewrite KC1 by (apply DJ; exact Ha). exact Hy.
  - intros a d Ha Hd y Hy. rewrite EL2 in Hy.
    + apply (EM a d); [right; apply in_app_iff; auto|right; apply in_app_iff; auto|exact Hy].
    + destruct (same_edge a d (k, rkey x)) eqn:SE; [|reflexivity]. apply same_edge_spec in SE as [SE|SE]; inversion SE; subst; contradiction.
  - assert (L := Nat.le_refl (length (rkeys x))). eapply (fits_down P P1); [| | |exact F]; nia.
Qed.

Lemma push_in_all x : push_in x.
Proof.
  induction x as [k cs IH] using rtree_ind'. intros fuel p t t1 t' c s D T n z e TN ND E Ad NK CD CT ST CM EM F. destruct fuel as [|fuel]; [discriminate|]. cbn [rkey rkeys] in *.
  cbn [push push_by] in *. inversion Ad as [? ? ? Af Ac]; subst. rewrite (tn_adj _ _ _ _ _ TN), Af in *.
  apply (push_in_each k D T n z e cs IH fuel t t1 t' c s TN ND E Ac NK CD).
  - intros a Ha. apply CT; [right; exact Ha|]. intros ->. inversion NK; contradiction.
  - exact ST.
  - exact CM.
  - exact EM.
  - exact F.
Qed.
End Trees.
