(** Which exceptions reading and writing files raises. *)
From Coq Require Import Ascii.
From Verif Require Import Base BaseFacts NDArray NDArrayFacts Node Network NetSpec NetFacts NetInv NetOps NetOps2 NetTop
  Xml IO IOText IOSpec IOProof IOMore ParseSpec IOParse Dynamic Files DocSpec DocProof DocProof2.

Lemma loc_eq_spec a b : loc_eq a b = true <-> a = b.
Proof. unfold loc_eq. destruct (list_eq_dec string_dec a b); split; congruence. Qed.
Lemma is_dir_spec f l : is_dir f l = true <-> a_directory f l.
Proof.
  unfold is_dir, a_directory. destruct l as [|c l]; [tauto|]. rewrite existsb_exists. split.
  - intros (x & H & E). apply loc_eq_spec in E. subst x. right. exact H.
  - intros [X|X]; [discriminate|]. exists (c :: l). split; [exact X|apply loc_eq_spec; reflexivity].
Qed.
Lemma is_dir_no f l : is_dir f l = false <-> ~ a_directory f l.
Proof. rewrite <- is_dir_spec. destruct (is_dir f l); split; congruence. Qed.

Lemma walk_leads f cs : forall a l, walk f a cs = Some l <-> leads f a cs l.
Proof.
  induction cs as [|c cs IH]; intros a l; cbn [walk].
  - split; [intros H; injection H as <-; constructor|]. intros H. inversion H; subst; reflexivity.
  - destruct (is_dir f a) eqn:D.
    + apply is_dir_spec in D. destruct (String.eqb c "" || String.eqb c ".") eqn:E.
      * rewrite IH. assert (E' : c = ""%string \/ c = "."%string). { apply Bool.orb_true_iff in E. destruct E as [E|E]; apply String.eqb_eq in E; auto. }
        split; [intros H; apply L_stay; assumption|]. intros H. inversion H; subst; [assumption|destruct E'; discriminate|destruct E'; contradiction].
      * apply Bool.orb_false_iff in E. destruct E as [E1 E2]. apply String.eqb_neq in E1, E2. destruct (String.eqb c "..") eqn:E3.
        -- apply String.eqb_eq in E3. subst c. rewrite IH. split; [intros H; apply L_up; assumption|]. intros H. inversion H; subst; [|assumption|contradiction].
           match goal with X : _ \/ _ |- _ => destruct X; discriminate end.
        -- apply String.eqb_neq in E3. rewrite IH. split; [intros H; apply L_down; assumption|]. intros H. inversion H; subst; [|contradiction|assumption].
           match goal with X : _ \/ _ |- _ => destruct X; contradiction end.
    + apply is_dir_no in D. split; [discriminate|]. intros H. inversion H; subst; contradiction.
Qed.
Lemma resolve_path f p l : resolve f p = Some l <-> path_to f p l.
Proof. apply walk_leads. Qed.

Lemma get_stored l c d : file_get l d = Some c <-> exists pre post, d = pre ++ (l, c) :: post /\ ~ In l (map fst pre).
Proof.
  induction d as [|[k c'] d IH]; cbn [file_get].
  - split; [discriminate|]. intros ([|? ?] & ? & X & _); discriminate.
  - destruct (loc_eq l k) eqn:E.
    + apply loc_eq_spec in E. subst k. split.
      * intros H. injection H as ->. exists [], d. split; [reflexivity|intros []].
      * intros (pre & post & X & N). destruct pre as [|[k2 c2] pre]; cbn in X; injection X; clear X; intros; subst; [reflexivity|].
        exfalso. apply N. left. reflexivity.
    + assert (NE : l <> k) by (intros X; apply loc_eq_spec in X; congruence). rewrite IH. split.
      * intros (pre & post & -> & N). exists ((k, c') :: pre), post. split; [reflexivity|]. intros [X|X]; [cbn in X; congruence|contradiction].
      * intros (pre & post & X & N). destruct pre as [|[k2 c2] pre]; cbn in X; injection X; clear X; intros; subst; [contradiction NE; reflexivity|].
        exists pre, post. split; [reflexivity|]. intros Y. apply N. right. exact Y.
Qed.

Lemma read_ok f p c : read_file f p = Ok c <-> file_at f p c.
Proof.
  unfold read_file, file_at. destruct (resolve f p) as [l|] eqn:R.
  - assert (RP := R). apply resolve_path in RP. split.
    + destruct (file_get l (ffiles f)) as [c'|] eqn:G; [|discriminate]. destruct (is_dir f l) eqn:D; [discriminate|]. intros H. injection H as <-.
      exists l. split; [exact RP|]. split; [apply is_dir_no, D|]. apply get_stored, G.
    + intros (l' & P & N & S). apply resolve_path in P. assert (l' = l) by congruence. subst l'. apply get_stored in S. rewrite S.
      apply is_dir_no in N. rewrite N. reflexivity.
  - split; [discriminate|]. intros (l & P & _). apply resolve_path in P. congruence.
Qed.
Lemma read_err f p e : read_file f p = Err e <-> e = FileNotFoundError /\ ~ exists c, file_at f p c.
Proof.
  assert (X : (exists c, read_file f p = Ok c) \/ read_file f p = Err FileNotFoundError).
  { unfold read_file. destruct (resolve f p) as [l|]; [|auto]. destruct (file_get l (ffiles f)); [|auto]. destruct (is_dir f l); eauto. }
  destruct X as [(c & X)|X].
  - rewrite X. split; [discriminate|]. intros [_ N]. exfalso. apply N. exists c. apply read_ok, X.
  - rewrite X. split; [|intros [-> _]; reflexivity]. intros H. injection H as <-. split; [reflexivity|]. intros (c & Y). apply read_ok in Y. congruence.
Qed.
Lemma file_at_fun f p c c' : file_at f p c -> file_at f p c' -> c = c'.
Proof. intros A B. apply read_ok in A, B. congruence. Qed.

Section Text.
Context {FT : FloatText}.
Variable ignore : bool.

Lemma xmlbif_fault_fun f p x y : xmlbif_fault f p x -> xmlbif_fault f p y -> x = y.
Proof.
  intros A B. destruct A as [A|a b ts A|t e A A2], B as [B|a' b' ts' B|t' e' B B2]; try reflexivity; try (exfalso; now eauto).
  - assert (X := file_at_fun _ _ _ _ A B). discriminate.
  - assert (X := file_at_fun _ _ _ _ A B). discriminate.
  - assert (X := file_at_fun _ _ _ _ A B). injection X as <-. eapply document_fault_fun; eassumption.
Qed.

(** The outcome of reading a network. *)
Lemma xmlbif_outcome h p f : sound_heap h -> orderly_file f p ->
  match xmlbif_parse ignore h p f with
  | (h', Err e) => xmlbif_fault f p e
  | (h', Ok g) => (forall e, ~ xmlbif_fault f p e) /\ sound_heap h' /\ exists l, declares_names f p l /\ forall v, in_net v g = true <-> In v l
  end.
Proof.
  intros SH OF. unfold xmlbif_parse. destruct (read_file f p) as [c|e] eqn:R.
  - apply read_ok in R. destruct c as [t|a b ts]; [|apply (X_other f p a b ts R)].
    assert (O := OF t R). assert (P := parse_outcome ignore h (reread 0 t) SH O). destruct (parse_tree ignore h (reread 0 t)) as [h' [g|e]] eqn:PT; cbn [outcome_of] in P.
    + destruct P as (A & vs & B & C & D & E). split; [|split].
      * intros e X. destruct X as [X|a b ts X|t' e X X2].
        -- apply X. eauto.
        -- assert (Y := file_at_fun _ _ _ _ R X). discriminate.
        -- assert (Y := file_at_fun _ _ _ _ R X). injection Y as <-. exact (document_sound _ _ _ A B C D X2).
      * destruct (parse_reads ignore h _ h' g SH O PT) as (rest & vs' & ds & _ & I & _). exact (iv_s _ I).
      * exists (map vd_name vs). split; [exists t, vs; auto|]. intros v. rewrite <- E. unfold in_net.
        destruct (parse_reads ignore h _ h' g SH O PT) as (rest & vs' & ds & _ & I & _). pose proof (co_same _ (iv_c _ I)) as S. cbn [wnet] in S. split.
        -- intros H. apply dmem_In, dget_key in H. destruct H as [i Hi]. apply S in Hi. exact (dget_Some_key _ _ _ Hi).
        -- intros H. apply dget_key in H. destruct H as [i Hi]. apply S in Hi. apply dmem_In. exact (dget_Some_key _ _ _ Hi).
    + exact (X_document f p t e R P).
  - apply read_err in R. destruct R as [-> R]. apply X_missing, R.
Qed.

Theorem xmlbif_raises h p f e : sound_heap h -> orderly_file f p -> ((exists h', xmlbif_parse ignore h p f = (h', Err e)) <-> xmlbif_fault f p e).
Proof.
  intros SH O. assert (P := xmlbif_outcome h p f SH O). destruct (xmlbif_parse ignore h p f) as [h' [g|e']].
  - destruct P as [N _]. split; [intros (h2 & X); discriminate|]. intros X. destruct (N e X).
  - split; [intros (h2 & X); injection X as _ <-; exact P|]. intros X. exists h'. rewrite (xmlbif_fault_fun _ _ _ _ P X). reflexivity.
Qed.

(** ** Specifications *)
Lemma transition_fault_fun n0 n2 t x y : transition_fault n0 n2 t x -> transition_fault n0 n2 t y -> x = y.
Proof. intros A B. destruct A, B; try reflexivity; contradiction. Qed.

Definition first_transition_fault (n0 n2 : list string) (ts : list (string * string)) (e : exc) : Prop :=
  exists pre t post, ts = pre ++ t :: post /\ (forall u e', In u pre -> ~ transition_fault n0 n2 u e') /\ transition_fault n0 n2 t e.

Lemma first_transition_fun n0 n2 ts x y : first_transition_fault n0 n2 ts x -> first_transition_fault n0 n2 ts y -> x = y.
Proof.
  intros (pre & t & post & A & B & C) (pre' & t' & post' & A' & B' & C'). rewrite A in A'. destruct (split_pos _ _ _ _ _ _ A') as [[-> ->]|[(m & ->)|(m & ->)]].
  - eapply transition_fault_fun; eassumption.
  - exfalso. apply (B' t x); [apply in_or_app; right; left; reflexivity|exact C].
  - exfalso. apply (B t' y); [apply in_or_app; right; left; reflexivity|exact C'].
Qed.

Lemma add_outcome n0 n2 ts : forall d, (forall v, in_net v (db0 d) = true <-> In v n0) -> (forall v, in_net v (dtwo d) = true <-> In v n2) ->
  match add_transitions d ts with
  | (_, Err e) => first_transition_fault n0 n2 ts e
  | (_, Ok _) => forall u e, In u ts -> ~ transition_fault n0 n2 u e
  end.
Proof.
  induction ts as [|[v p] ts IH]; intros d H0 H2; cbn [add_transitions]; [intros u e []|]. unfold add_transition.
  destruct (in_net p (db0 d)) eqn:E0; cbn [negb].
  - apply H0 in E0. destruct (in_net p (dtwo d)) eqn:E2; cbn [negb].
    + apply H2 in E2. destruct (in_net v (dtwo d)) eqn:E3; cbn [negb].
      * apply H2 in E3. assert (N : forall e, ~ transition_fault n0 n2 (v, p) e) by (intros e X; destruct X; contradiction).
        assert (R := IH (mkDbn (db0 d) (dtwo d) (dtrans d ++ [(v, p)])) H0 H2). destruct (add_transitions _ ts) as [d' [u|e]].
        -- intros u' e [<-|Hu]; [apply N|apply R, Hu].
        -- destruct R as (pre & t & post & -> & B & C). exists ((v, p) :: pre), t, post. split; [reflexivity|]. split; [|exact C].
           intros u' e' [<-|Hu]; [apply N|apply B, Hu].
      * exists [], (v, p), ts. split; [reflexivity|]. split; [intros u e' []|]. apply T_third; [exact E0|exact E2|]. intros X. apply H2 in X. cbn in X. congruence.
    + exists [], (v, p), ts. split; [reflexivity|]. split; [intros u e' []|]. apply T_second; [exact E0|]. intros X. apply H2 in X. cbn in X. congruence.
  - exists [], (v, p), ts. split; [reflexivity|]. split; [intros u e' []|]. apply T_first. intros X. apply H0 in X. cbn in X. congruence.
Qed.

Lemma declares_names_fun f p l l' : declares_names f p l -> declares_names f p l' -> l = l'.
Proof.
  intros (t & vs & A & B & ->) (t' & vs' & A' & B' & ->). assert (X := file_at_fun _ _ _ _ A A'). injection X as <-.
  rewrite (declares_all_fun _ _ _ B B'). reflexivity.
Qed.

Lemma spec_fault_fun f p x y : spec_fault f p x -> spec_fault f p y -> x = y.
Proof.
  intros A B.
  destruct A as [A|t A|a b ts e A A1|a b ts e A A1 A2|a b ts n0 n2 pre t post e A A1 A2 A3 A4 A5 A6 A7];
  destruct B as [B|t' B|a' b' ts' e' B B1|a' b' ts' e' B B1 B2|a' b' ts' n0' n2' pre' t' post' e' B B1 B2 B3 B4 B5 B6 B7];
  try reflexivity; try (exfalso; now eauto);
  try (assert (X := file_at_fun _ _ _ _ A B); try discriminate; injection X as <- <- <-);
  try (exfalso; match goal with N : forall _, ~ _, H : xmlbif_fault _ _ _ |- _ => exact (N _ H) end); try (eapply xmlbif_fault_fun; eassumption).
  assert (E1 := declares_names_fun _ _ _ _ A3 B3). assert (E2 := declares_names_fun _ _ _ _ A4 B4). subst n0' n2'.
  apply (first_transition_fun n0 n2 ts); [exists pre, t, post|exists pre', t', post']; auto.
Qed.

Lemma spec_outcome h p f : sound_heap h -> orderly_spec f p ->
  match dbn_parse ignore h p f with
  | (_, Err e) => spec_fault f p e
  | (_, Ok _) => forall e, ~ spec_fault f p e
  end.
Proof.
  intros SH OS. unfold dbn_parse. destruct (read_file f p) as [c|e] eqn:R.
  2: { apply read_err in R. destruct R as [-> R]. apply S_missing, R. }
  apply read_ok in R. destruct c as [t|a b ts]; [exact (S_other f p t R)|]. destruct (OS a b ts R) as [O0 O2].
  assert (P0 := xmlbif_outcome h (spec_path f p a) f SH O0). destruct (xmlbif_parse ignore h (spec_path f p a) f) as [h1 [g0|e0]].
  2: exact (S_b0 f p a b ts e0 R P0).
  destruct P0 as (N0 & SH1 & l0 & D0 & K0).
  assert (P2 := xmlbif_outcome h1 (spec_path f p b) f SH1 O2). destruct (xmlbif_parse ignore h1 (spec_path f p b) f) as [h2 [g2|e2]].
  2: exact (S_two f p a b ts e2 R N0 P2).
  destruct P2 as (N2 & SH2 & l2 & D2 & K2). unfold new_dbn. cbn [add_transitions rbind].
  assert (A := add_outcome l0 l2 ts (mkDbn g0 g2 []) K0 K2). destruct (add_transitions _ ts) as [d' [u|e]].
  - intros e X. destruct X as [X|t X|a' b' ts' e X X1|a' b' ts' e X X1 X2|a' b' ts' n0' n2' pre' t' post' e X X1 X2 X3 X4 X5 X6 X7];
      [apply X; eauto|assert (Y := file_at_fun _ _ _ _ R X); discriminate| | |];
      assert (Y := file_at_fun _ _ _ _ R X); injection Y as <- <- <-; [eapply N0; exact X1|eapply N2; exact X2|].
    assert (E1 := declares_names_fun _ _ _ _ D0 X3). assert (E2 := declares_names_fun _ _ _ _ D2 X4). subst n0' n2'.
    apply (A t' e); [rewrite X5; apply in_or_app; right; left; reflexivity|exact X7].
  - destruct A as (pre & t & post & -> & B & C). exact (S_transition f p a b _ l0 l2 pre t post e R N0 N2 D0 D2 eq_refl B C).
Qed.

Theorem spec_raises h p f e : sound_heap h -> orderly_spec f p -> ((exists h', dbn_parse ignore h p f = (h', Err e)) <-> spec_fault f p e).
Proof.
  intros SH O. assert (P := spec_outcome h p f SH O). destruct (dbn_parse ignore h p f) as [h' [g|e']].
  - split; [intros (h2 & X); discriminate|]. intros X. destruct (P e X).
  - split; [intros (h2 & X); injection X as _ <-; exact P|]. intros X. exists h'. rewrite (spec_fault_fun _ _ _ _ P X). reflexivity.
Qed.

(** ** Writing *)
Lemma write_cases w : inv w -> (exists t, write_tree ignore w = Ok t) /\ printable_net (negb ignore) w \/ write_tree ignore w = Err ValueError /\ ~ printable_net (negb ignore) w.
Proof.
  intros I. destruct (write_tree ignore w) as [t|e] eqn:W.
  - left. split; [eauto|]. pose proof (iv_c w I) as C. unfold write_tree in W.
    destruct (leaf_cases "NAME" (bname (wnet w))) as [[Q P]|[Q P]]; rewrite Q in W; cbn [rbind] in W; [|discriminate].
    destruct (props_cases ignore (bmeta (wnet w))) as [[(zs & Q2) M]|[Q2 M]]; rewrite Q2 in W; cbn [rbind] in W; [|discriminate].
    assert (D : forall p, In p (ggraph (wnet w)) -> exists v i n, p = (v, i) /\ holds w v i n /\ deref (whp w) i = n /\ nname n = v).
    { intros (v, i) X. apply In_dget in X; [|apply C]. apply (co_same w C) in X.
      destruct (co_named w C v i X) as (m & Hm & E). exists v, i, m. split; [reflexivity|]. split; [split; assumption|].
      split; [unfold deref; apply nth_error_nth, Hm|exact E]. }
    destruct (mapM _ _) as [es|e] eqn:E; cbn [rbind] in W; [|discriminate]. constructor.
    + exact P.
    + intros X. apply M. destruct ignore; [discriminate|reflexivity].
    + intros v i n H. assert (G : In (v, i) (ggraph (wnet w))) by (apply dget_In, (co_same w C), H).
      destruct (D _ G) as (v' & i' & m & X & Hm & Dm & Nm). injection X as <- <-.
      assert (EQ : m = n) by (destruct H as [_ H], Hm as [_ Hm]; congruence). rewrite EQ in Dm, Nm.
      destruct (write_node_cases ignore n (inv_discrete w I _ _ _ H)) as [(_ & A1 & A2 & A3)|A].
      * rewrite <- Nm. split; [exact A1|]. split; [exact A2|]. intros X. apply A3. destruct ignore; [discriminate|reflexivity].
      * apply mapM_ok in E. exfalso. clear - E G A Dm. induction E as [|p q l l' Q _ IH]; [destruct G|].
        destruct G as [->|G]; [|exact (IH G)]. cbn in Q. rewrite Dm in Q. congruence.
  - right. assert (N : ~ printable_net (negb ignore) w) by (intros P; rewrite (write_tree_ok ignore w I P) in W; discriminate).
    split; [|exact N]. rewrite (write_tree_err ignore w I N) in W. congruence.
Qed.

Lemma put_stored l c d : exists pre post, file_put l c d = pre ++ (l, c) :: post /\ ~ In l (map fst pre).
Proof. apply get_stored. induction d as [|[k c'] d IH]; cbn; [|destruct (loc_eq l k) eqn:E; cbn; rewrite E; [reflexivity|exact IH]].
  assert (E : loc_eq l l = true) by (apply loc_eq_spec; reflexivity). rewrite E. reflexivity.
Qed.

Lemma write_file_cases f p c : (writable f p /\ exists f', write_file f p c = (f', Ok tt) /\ fdirs f' = fdirs f /\ fcwd f' = fcwd f /\ file_at f' p c) \/
  (~ writable f p /\ write_file f p c = (f, Err FileNotFoundError)).
Proof.
  unfold write_file. destruct (resolve f p) as [l|] eqn:R.
  - assert (RP := R). apply resolve_path in RP. destruct (is_dir f l) eqn:D.
    + right. split; [|reflexivity]. intros (l' & P & N). apply resolve_path in P. assert (l' = l) by congruence. subst l'. apply N, is_dir_spec, D.
    + apply is_dir_no in D. left. split; [exists l; auto|]. eexists. split; [reflexivity|]. split; [reflexivity|]. split; [reflexivity|].
      exists l. split; [|split; [exact D|apply put_stored]]. clear - RP. unfold path_to in *. cbn [fcwd]. revert RP.
      generalize (if isabs p then [] else fcwd f). generalize (split_at slash p). intros cs a H. induction H; [apply L_here|apply L_stay|apply L_up|apply L_down]; auto.
  - right. split; [|reflexivity]. intros (l & P & _). apply resolve_path in P. congruence.
Qed.

Lemma same_dirs f f' p : fdirs f' = fdirs f -> fcwd f' = fcwd f -> writable f' p -> writable f p.
Proof.
  intros D C (l & P & N). exists l. assert (AD : forall k, a_directory f' k <-> a_directory f k) by (intros k; unfold a_directory; rewrite D; tauto).
  split; [|rewrite <- AD; exact N]. unfold path_to in *. rewrite C in P. revert P. generalize (if isabs p then [] else fcwd f). generalize (split_at slash p).
  intros cs a H. induction H; [apply L_here|apply L_stay|apply L_up|apply L_down]; auto; apply AD; assumption.
Qed.

Lemma broken_here (P : Prop) e l : ~ P -> first_broken ((P, e) :: l) e.
Proof. intros N. exists [], P, l. split; [reflexivity|]. split; [constructor|exact N]. Qed.
Lemma broken_next (P : Prop) e' l e : P -> first_broken l e -> first_broken ((P, e') :: l) e.
Proof. intros H (pre & Q & post & -> & F & N). exists ((P, e') :: pre), Q, post. split; [reflexivity|]. split; [constructor; assumption|exact N]. Qed.
Lemma not_broken (l : list (Prop * exc)) e : Forall (fun c => fst c) l -> ~ first_broken l e.
Proof. intros F (pre & P & post & -> & _ & N). apply Forall_app in F. destruct F as [_ F]. inversion F; subst. contradiction. Qed.
Lemma broken_inv (P : Prop) e' l e : first_broken ((P, e') :: l) e -> (e = e' /\ ~ P) \/ (P /\ first_broken l e).
Proof.
  intros (pre & Q & post & E & F & N). destruct pre as [|c pre]; cbn in E.
  - injection E as -> -> ->. left. auto.
  - injection E as <- ->. inversion F; subst. right. split; [assumption|]. exists pre, Q, post. auto.
Qed.
Lemma broken_nil e : ~ first_broken [] e.
Proof. intros ([|? ?] & Q & post & E & _); discriminate. Qed.
Lemma broken_fun l e e' : first_broken l e -> first_broken l e' -> e = e'.
Proof.
  intros (pre & P & post & -> & F & N) (pre' & P' & post' & E & F' & N'). destruct (split_pos _ _ _ _ _ _ E) as [[_ X]|[(m & ->)|(m & ->)]].
  - congruence.
  - exfalso. apply Forall_app in F'. destruct F' as [_ F']. inversion F'; subst. contradiction.
  - exfalso. apply Forall_app in F. destruct F as [_ F]. inversion F; subst. contradiction.
Qed.

Lemma xmlbif_write_outcome w p f : inv w ->
  match xmlbif_write ignore w p f with
  | (f', Err e) => f' = f /\ first_broken (xmlbif_conditions ignore w p f) e
  | (f', Ok _) => Forall (fun c => fst c) (xmlbif_conditions ignore w p f) /\ fdirs f' = fdirs f /\ fcwd f' = fcwd f /\ exists t, write_tree ignore w = Ok t /\ file_at f' p (Doc t)
  end.
Proof.
  intros I. unfold xmlbif_write. destruct (write_cases w I) as [[(t & W) P]|[W P]]; rewrite W.
  - destruct (write_file_cases f p (Doc t)) as [(A & f' & -> & B & C & D)|[A ->]].
    + split; [apply Forall_cons; [exact P|apply Forall_cons; [exact A|apply Forall_nil]]|]. eauto.
    + split; [reflexivity|]. apply broken_next; [exact P|]. apply broken_here, A.
  - split; [reflexivity|]. apply broken_here, P.
Qed.

Theorem xmlbif_write_raises w p f : inv w ->
  (forall e, snd (xmlbif_write ignore w p f) = Err e <-> first_broken (xmlbif_conditions ignore w p f) e) /\
  (snd (xmlbif_write ignore w p f) <> Ok tt -> fst (xmlbif_write ignore w p f) = f).
Proof.
  intros I. assert (O := xmlbif_write_outcome w p f I). destruct (xmlbif_write ignore w p f) as [f' [[]|e]]; cbn [fst snd].
  - destruct O as (A & _). split; [|congruence]. intros e. split; [discriminate|]. intros X. destruct (not_broken _ _ A X).
  - destruct O as (-> & A). split; [|reflexivity]. intros e'. split; [intros X; injection X as <-; exact A|]. intros X. rewrite (broken_fun _ _ _ A X). reflexivity.
Qed.

Theorem dbn_write_raises h d path name f e : inv (mkW h (db0 d)) -> inv (mkW h (dtwo d)) ->
  (snd (dbn_write ignore h d path name f) = Err e <-> first_broken (spec_conditions ignore h d path name f) e).
Proof.
  intros I0 I2. assert (O : match snd (dbn_write ignore h d path name f) with Err e => first_broken (spec_conditions ignore h d path name f) e | Ok _ => Forall (fun c => fst c) (spec_conditions ignore h d path name f) end).
  { unfold dbn_write, spec_conditions. assert (O0 := xmlbif_write_outcome _ (path ++ name ++ "-b0.xbif") f I0).
    destruct (xmlbif_write ignore _ _ f) as [f1 [[]|e0]].
    2: { cbn [snd]. destruct O0 as [_ X]. unfold xmlbif_conditions in X. apply broken_inv in X. destruct X as [[-> X]|[P X]]; [apply broken_here, X|]. apply broken_next; [exact P|].
         apply broken_inv in X. destruct X as [[-> X]|[_ X]]; [apply broken_here, X|destruct (broken_nil _ X)]. }
    destruct O0 as (F0 & D1 & C1 & _). inversion F0 as [|? ? A1 F1]; subst. inversion F1 as [|? ? A2 _]; subst. cbn [fst] in A1, A2.
    assert (O2 := xmlbif_write_outcome _ (path ++ name ++ "-2tbn.xbif") f1 I2). unfold xmlbif_conditions in O2.
    assert (WE : forall q, writable f1 q <-> writable f q) by (intros q; split; apply same_dirs; congruence).
    destruct (xmlbif_write ignore _ _ f1) as [f2 [[]|e2]].
    2: { cbn [snd]. do 2 (apply broken_next; [assumption|]). destruct O2 as [_ X]. apply broken_inv in X. destruct X as [[-> X]|[P X]]; [apply broken_here, X|]. apply broken_next; [exact P|].
         apply broken_inv in X. destruct X as [[-> X]|[_ X]]; [apply broken_here; rewrite <- WE; exact X|destruct (broken_nil _ X)]. }
    destruct O2 as (F2 & D2 & C2 & _). inversion F2 as [|? ? A3 F3]; subst. inversion F3 as [|? ? A4 _]; subst. cbn [fst] in A3, A4.
    assert (WE2 : forall q, writable f2 q <-> writable f q) by (intros q; split; apply same_dirs; congruence).
    destruct (write_file_cases f2 (path ++ name ++ ".conf") (Conf (name ++ "-b0.xbif") (name ++ "-2tbn.xbif") (dtrans d))) as [(A & f' & -> & _)|[A ->]]; cbn [snd].
    - apply WE2 in A. apply WE in A4. do 5 (apply Forall_cons; [assumption|]). apply Forall_nil.
    - apply WE in A4. do 4 (apply broken_next; [assumption|]). apply broken_here. rewrite <- WE2. exact A. }
  destruct (snd (dbn_write ignore h d path name f)) as [u|e']; split; intros X; try discriminate.
  - destruct (not_broken _ _ O X).
  - injection X as <-. exact O.
  - rewrite (broken_fun _ _ _ O X). reflexivity.
Qed.

End Text.
