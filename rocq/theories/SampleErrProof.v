From Coq Require Import Field.
From Verif Require Import Base NDArray Factor Exact Spec OrderSpec TreeSpec BaseFacts NDArrayFacts FactorFacts SpecFacts FactorSpec FactorProofs Sampling MCSpec MCFacts MCProof MCTop MCChain MCForward MCMarginal SampleErrSpec.

Lemma foldM_fault {A B} (f : B -> A -> res B) e l : (forall x a, In a l -> f x a = Err e \/ exists y, f x a = Ok y) ->
  (exists a, In a l /\ forall x, f x a = Err e) -> forall x, foldM f l x = Err e.
Proof.
  induction l as [|a l IH]; intros H (c & Hc & F) x; [destruct Hc|]. cbn [foldM].
  destruct (H x a (or_introl eq_refl)) as [->|(y & E)]; [reflexivity|]. rewrite E. cbn [rbind]. apply IH.
  - intros z d Hd. apply H. now right.
  - destruct Hc as [->|Hc]; [rewrite F in E; discriminate|]. now exists c.
Qed.

Lemma mapM_fault {A B} (f : A -> res B) e l : (forall a, In a l -> f a = Err e \/ exists y, f a = Ok y) ->
  (exists a, In a l /\ f a = Err e) -> mapM f l = Err e.
Proof.
  induction l as [|a l IH]; intros H (c & Hc & F); [destruct Hc|]. cbn [mapM].
  destruct (H a (or_introl eq_refl)) as [->|(y & E)]; [reflexivity|]. rewrite E. cbn [rbind]. rewrite IH; [reflexivity| |].
  - intros d Hd. apply H. now right.
  - destruct Hc as [->|Hc]; [rewrite F in E; discriminate|]. now exists c.
Qed.

Section Net.
Variable b : bn.
Hypothesis SN : sampled_net b.
Let WB := sn_bn b SN.
Let WG := sn_graph b SN.
Let EM := sn_edges b SN.
Let ON := sn_once b SN.
Let NN := sn_nonneg b SN.

Definition assigned (st : state) (l : list string) : Prop := forall v, In v l -> exists x, dget v st = Some x.

Lemma fam_cases st n : In n (bnodes b) -> assigned st (fam n) -> fam_ok b n st \/ exists u, In u (fam n) /\ wrong_value b st u.
Proof.
  intros Hn A. assert (H : incl (fam n) (bnames b)) by (intros v Hv; eapply fam_names; eauto).
  unfold fam_ok. induction (fam n) as [|v l IH]; [left; intros v []|].
  destruct (A v (or_introl eq_refl)) as (x & Hx). destruct (in_dec string_dec x (values_of b v)) as [I|N].
  - destruct IH as [IH|(u & Hu & W)].
    + intros w Hw. apply A. now right.
    + intros w Hw. apply H. now right.
    + left. intros w [<-|Hw]; [now exists x|now apply IH].
    + right. exists u. split; [now right|exact W].
  - right. exists v. split; [now left|]. split; [apply H; now left|]. now exists x.
Qed.

Lemma sp_fault n st x : In n (bnodes b) -> assigned st (fam n) -> dget (dn_name n) st = Some x ->
  (exists u, In u (fam n) /\ wrong_value b st u) -> sp n x st = Err ValueError.
Proof.
  intros Hn A Hx (u & Hu & Bu & y & Hy & Ny). pose proof (wb_nodes _ WB _ Hn) as WN. unfold sp.
  assert (E1 : match dn_values n with [] => Ok [] | _ :: _ => let* i := py_index x (dn_values n) in Ok [i] end
               = if in_dec string_dec x (dn_values n) then Ok [idx x (dn_values n)] else Err ValueError).
  { pose proof (proj1 (wn_values _ _ WN)) as NE. destruct (dn_values n) as [|z l]; [contradiction|].
    destruct (in_dec string_dec x (z :: l)) as [I|N]; [now rewrite (py_index_ok x _ I)|now rewrite (py_index_err x _ N)]. }
  rewrite E1. destruct (in_dec string_dec x (dn_values n)) as [I|N]; cbn [rbind]; [|reflexivity].
  assert (PV : forall p, In p (dn_parents n) -> snd p = values_of b (fst p)).
  { intros [p vals] Hp. cbn [fst snd]. destruct (wn_pvals _ _ WN _ _ Hp) as (m & M & <- & <-). symmetry. now apply values_of_node. }
  rewrite (mapM_fault _ ValueError); [reflexivity| |].
  - intros p Hp. destruct (A (fst p)) as (z & Z); [right; now apply in_map|]. unfold dget_err. rewrite Z. cbn [rbind].
    destruct (in_dec string_dec z (snd p)) as [J|J]; [right; eexists; now apply py_index_ok|left; now apply py_index_err].
  - destruct Hu as [<-|Hu].
    + exfalso. apply Ny. rewrite (values_of_node b WB n Hn). congruence.
    + apply in_map_iff in Hu as (p & <- & Hp). exists p. split; [exact Hp|]. unfold dget_err. rewrite Hy. cbn [rbind].
      apply py_index_err. now rewrite (PV p Hp).
Qed.

(** The tables that contain [v]. *)
Lemma tables_of n m : In n (bnodes b) -> In m (bnodes b) -> In (dn_name n) (fam m) -> m = n \/ In m (kids b (dn_name n)).
Proof.
  intros Hn Hm [E|H]; [left; eapply (node_unique b WB); eauto|]. right. apply filter_In. split; [exact Hm|]. now apply mem_In.
Qed.

Lemma kids_tables n m : m = n \/ In m (kids b (dn_name n)) -> In n (bnodes b) -> In m (bnodes b) /\ In (dn_name n) (fam m).
Proof.
  intros [->|H] Hn; [split; [exact Hn|now left]|]. apply filter_In in H as [H K]. split; [exact H|]. right. now apply mem_In.
Qed.

Lemma blocked_spec st n : In n (bnodes b) -> (exists x, dget (dn_name n) st = Some x /\ In x (dn_values n)) ->
  (blocked b st (dn_name n) <-> exists m u, (m = n \/ In m (kids b (dn_name n))) /\ In u (fam m) /\ wrong_value b st u).
Proof.
  intros Hn (x & Hx & Ix). split.
  - intros (u & (N & m & Hm & A & B) & W). exists m, u. split; [now apply tables_of|]. auto.
  - intros (m & u & K & Hu & W). destruct (kids_tables n m K Hn) as [Hm Fm]. exists u. split; [|exact W].
    split; [|exists m; auto]. intros <-. destruct W as (_ & y & Y & Ny). apply Ny. rewrite (values_of_node b WB n Hn). congruence.
Qed.

Lemma markov_outcome n st x cs : In n (bnodes b) -> assigned st (bnames b) -> dget (dn_name n) st = Some x -> In x (dn_values n) ->
  Permutation cs (kids b (dn_name n)) ->
  (blocked b st (dn_name n) -> get_markov_prob n x cs st false = Err ValueError) /\
  (~ blocked b st (dn_name n) -> get_markov_prob n x cs st false = Ok (blanket b n st)).
Proof.
  intros Hn A Hx Ix P. pose proof (blocked_spec st n Hn (ex_intro _ x (conj Hx Ix))) as BS.
  assert (AF : forall m, In m (bnodes b) -> assigned st (fam m)) by (intros m Hm v Hv; apply A; eapply fam_names; eauto).
  assert (K : forall m, In m cs -> In m (bnodes b)).
  { intros m Hm. eapply Permutation_in in Hm; [|exact P]. now apply filter_In in Hm. }
  split.
  - intros BL. apply BS in BL as (m & u & KM & Hu & W). unfold get_markov_prob.
    destruct (fam_cases st n Hn (AF n Hn)) as [FO|FW]; [|now rewrite (sp_fault n st x Hn (AF n Hn) Hx FW)].
    rewrite (sp_entry b WB n st x Hn FO (look_dget _ _ _ Hx)). cbn [rbind]. destruct KM as [->|KM].
    + exfalso. destruct (FO u Hu) as (y & Y & IY). destruct W as (_ & z & Z & Nz). apply Nz. congruence.
    + apply foldM_fault.
      * intros p c Hc. destruct (AF c (K c Hc) (dn_name c) (or_introl eq_refl)) as (y & Y). unfold dget_err. rewrite Y. cbn [rbind].
        destruct (fam_cases st c (K c Hc) (AF c (K c Hc))) as [FC|FC].
        -- rewrite (sp_entry b WB c st y (K c Hc) FC (look_dget _ _ _ Y)). right. eexists. reflexivity.
        -- rewrite (sp_fault c st y (K c Hc) (AF c (K c Hc)) Y FC). now left.
      * assert (Hm : In m cs) by (eapply Permutation_in; [symmetry; exact P|exact KM]). exists m. split; [exact Hm|]. intros p.
        destruct (AF m (K m Hm) (dn_name m) (or_introl eq_refl)) as (y & Y). unfold dget_err. rewrite Y. cbn [rbind].
        now rewrite (sp_fault m st y (K m Hm) (AF m (K m Hm)) Y (ex_intro _ u (conj Hu W))).
  - intros NB. assert (FO : forall m, m = n \/ In m (kids b (dn_name n)) -> fam_ok b m st).
    { intros m KM. destruct (kids_tables n m KM Hn) as [Hm _]. destruct (fam_cases st m Hm (AF m Hm)) as [F|(u & Hu & W)]; [exact F|].
      exfalso. apply NB, BS. exists m, u. auto. }
    unfold get_markov_prob. rewrite (sp_entry b WB n st x Hn (FO n (or_introl eq_refl)) (look_dget _ _ _ Hx)). cbn [rbind].
    unfold blanket. rewrite <- (qprod_perm _ _ (Permutation_map (fun m => entry m st) P)).
    assert (FC : forall m, In m cs -> fam_ok b m st) by (intros m Hm; apply FO; right; eapply Permutation_in; [exact P|exact Hm]).
    generalize (entry n st) as p. clear P. induction cs as [|m cs IH]; intros p; cbn [foldM map qprod]; [f_equal; ring|].
    destruct (FC m (or_introl eq_refl) (dn_name m)) as (y & Y & IY); [now left|].
    unfold dget_err. rewrite Y. cbn [rbind].
    rewrite (sp_entry b WB m st y (K m (or_introl eq_refl)) (FC m (or_introl eq_refl)) (look_dget _ _ _ Y)).
    cbn [rbind]. rewrite IH by (intros; (apply K || apply FC); now right). f_equal. ring.
Qed.

Lemma wrong_dset st v x u : u <> v -> (wrong_value b (dset v x st) u <-> wrong_value b st u).
Proof. intros N. unfold wrong_value. now rewrite dget_dset_neq. Qed.

Lemma blocked_dset st v x : blocked b (dset v x st) v <-> blocked b st v.
Proof.
  split; intros (u & I & W); exists u; (split; [exact I|]); [apply wrong_dset in W|apply wrong_dset]; try exact W; destruct I as [N _]; congruence.
Qed.

(** Decide whether a variable is blocked. *)
Definition wrongb (st : state) (v : string) : bool :=
  mem v (bnames b) && match dget v st with Some x => negb (mem x (values_of b v)) | None => false end.
Definition blockedb (st : state) (v : string) : bool :=
  existsb (fun m => mem v (fam m) && existsb (fun u => negb (String.eqb u v) && wrongb st u) (fam m)) (bnodes b).

Lemma wrongb_spec st v : wrongb st v = true <-> wrong_value b st v.
Proof.
  unfold wrongb, wrong_value. rewrite andb_true_iff, mem_In. split; intros [A B]; (split; [exact A|]).
  - destruct (dget v st) as [x|]; [|discriminate]. exists x. split; [reflexivity|]. apply negb_true_iff in B. now apply mem_nIn.
  - destruct B as (x & -> & N). apply negb_true_iff. now apply mem_nIn.
Qed.

Lemma blockedb_spec st v : blockedb st v = true <-> blocked b st v.
Proof.
  unfold blockedb, blocked, interacts. rewrite existsb_exists. split.
  - intros (m & Hm & H). apply andb_true_iff in H as [H1 H2]. apply mem_In in H1. apply existsb_exists in H2 as (u & Hu & H2).
    apply andb_true_iff in H2 as [N W]. apply negb_true_iff, String.eqb_neq in N. apply wrongb_spec in W.
    exists u. split; [|exact W]. split; [congruence|]. exists m. auto.
  - intros (u & (N & m & Hm & A & B) & W). exists m. split; [exact Hm|]. apply andb_true_iff. split; [now apply mem_In|].
    apply existsb_exists. exists u. split; [exact B|]. apply andb_true_iff. split; [apply negb_true_iff, String.eqb_neq; congruence|now apply wrongb_spec].
Qed.

Lemma blocked_dec st v : blocked b st v \/ ~ blocked b st v.
Proof. destruct (blockedb st v) eqn:E; [left|right]; rewrite <- blockedb_spec; congruence. Qed.

(** One variable changed. *)
Variable g : rng.
Hypothesis RG : rng_ok g.

Lemma mapM_head {A B} (f : A -> res B) e x l : f x = Err e -> mapM f (x :: l) = Err e.
Proof. intros H. cbn [mapM]. now rewrite H. Qed.

Lemma assigned_dset st l v x : assigned st l -> assigned (dset v x st) l.
Proof. intros A u Hu. rewrite dget_dset. destruct (String.eqb u v); [now exists x|now apply A]. Qed.

Lemma gibbs_outcome st k v : assigned st (bnames b) -> In v (bnames b) ->
  (blocked b st v -> gibbs_one g b (st, k) v = Err ValueError) /\
  (~ blocked b st v -> exists x, In x (values_of b v) /\ gibbs_one g b (st, k) v = Ok (dset v x st, S k)).
Proof.
  intros A Hv. destruct (node_of b SN v Hv) as (n & Hn & E & GN & V & NE & ND). subst v.
  destruct (children_ok b WB WG EM ON (dn_name n) Hv) as (cs & GC & P).
  unfold gibbs_one. cbn [fst snd]. rewrite GN. cbn [rbind]. rewrite GC. cbn [rbind].
  assert (MO : forall x, In x (dn_values n) -> (blocked b st (dn_name n) -> get_markov_prob n x cs (dset (dn_name n) x st) false = Err ValueError) /\
     (~ blocked b st (dn_name n) -> get_markov_prob n x cs (dset (dn_name n) x st) false = Ok (blanket b n (dset (dn_name n) x st)))).
  { intros x Ix. destruct (markov_outcome n (dset (dn_name n) x st) x cs Hn (assigned_dset _ _ _ _ A) (dget_dset_eq _ _ _) Ix P) as [M1 M2].
    rewrite blocked_dset in M1, M2. now split. }
  split; intros BL.
  - unfold sample_value. destruct (dn_values n) as [|y l]; [contradiction|].
    rewrite mapM_head with (e := ValueError); [reflexivity|]. apply MO; [now left|exact BL].
  - assert (FW : mapM (fun x => get_markov_prob n x cs (dset (dn_name n) x st) false) (dn_values n) =
                 Ok (map (fun x => blanket b n (dset (dn_name n) x st)) (dn_values n))).
    { apply mapM_total. intros x Ix. apply MO; [exact Ix|exact BL]. }
    destruct (sv_total g k n st cs false _ FW (blanket_weights_nonneg b SN n st Hn) (proj1 (RG k)) (proj2 (RG k)) NE) as (x & Hx & Ex).
    exists x. rewrite V. split; [exact Hx|]. now rewrite Ex.
Qed.

Lemma mh_outcome st k v : assigned st (bnames b) -> In v (bnames b) -> (exists x, dget v st = Some x /\ In x (values_of b v)) ->
  (blocked b st v -> mh_one g b (st, k) v = Err ValueError) /\
  (~ blocked b st v -> exists st', mh_one g b (st, k) v = Ok (st', S (S k)) /\ (st' = st \/ exists x, In x (values_of b v) /\ st' = dset v x st)).
Proof.
  intros A Hv (x & Hx & Ix). destruct (node_of b SN v Hv) as (n & Hn & E & GN & V & NE & ND). subst v.
  destruct (children_ok b WB WG EM ON (dn_name n) Hv) as (cs & GC & P).
  unfold mh_one. cbn [fst snd]. unfold dget_err. rewrite Hx. cbn [rbind]. rewrite GN. cbn [rbind].
  destruct (choice_ok g k (dn_values n) NE) as (y & Iy & Ey). rewrite Ey. cbn [rbind]. rewrite GC. cbn [rbind].
  destruct (markov_outcome n (dset (dn_name n) y st) y cs Hn (assigned_dset _ _ _ _ A) (dget_dset_eq _ _ _) Iy P) as [M1 M2].
  rewrite blocked_dset in M1, M2. rewrite V in Ix. destruct (markov_outcome n st x cs Hn A Hx Ix P) as [C1 C2]. split; intros BL.
  - now rewrite (M1 BL).
  - rewrite (M2 BL). cbn [rbind]. rewrite (C2 BL). cbn [rbind]. eexists. split; [reflexivity|].
    destruct (qleb _ _); [right; exists y; split; [now rewrite V|reflexivity]|now left].
Qed.

Variable ev : state.

Lemma started_wrong st u : started b ev st -> In u (bnames b) -> (wrong_value b st u <-> wrong_value b ev u).
Proof.
  intros [K S] Hu. unfold wrong_value. split; intros [_ (x & Hx & N)]; (split; [exact Hu|]); exists x; (split; [|exact N]).
  - destruct (S u Hu) as (y & Hy & [I|I]).
    + apply dget_key in I as (z & Z). pose proof (K _ _ Z). congruence.
    + exfalso. apply N. congruence.
  - now apply K.
Qed.

Lemma interacts_names u v : interacts b u v -> In u (bnames b) /\ In v (bnames b).
Proof. intros (_ & n & Hn & A & B). split; eapply fam_names; eauto. Qed.

Lemma started_blocked st v : started b ev st -> (blocked b st v <-> blocked b ev v).
Proof.
  intros S. split; intros (u & I & W); exists u; (split; [exact I|]); [rewrite <- (started_wrong st u S)|rewrite (started_wrong st u S)]; auto;
    apply (interacts_names _ _ I).
Qed.

Lemma started_dset st v x : started b ev st -> ~ In v (dkeys ev) -> In x (values_of b v) -> started b ev (dset v x st).
Proof.
  intros [K S] N I. split; [now apply keeps_dset|]. intros u Hu. rewrite dget_dset. destruct (String.eqb_spec u v) as [->|X]; [exists x; auto|now apply S].
Qed.

Lemma one_outcome t st k v : started b ev st -> In v (bnames b) -> ~ In v (dkeys ev) ->
  (blocked b ev v -> change_one t g b (st, k) v = Err ValueError) /\
  (~ blocked b ev v -> exists st', change_one t g b (st, k) v = Ok (st', k + (calls_per_step t - 1)) /\ started b ev st').
Proof.
  intros S Hv N. assert (A : assigned st (bnames b)).
  { intros u Hu. destruct (proj2 S u Hu) as (x & Hx & _). now exists x. }
  rewrite <- (started_blocked st v S). destruct t; cbn [change_one calls_per_step].
  - destruct (gibbs_outcome st k v A Hv) as [G1 G2]. split; [exact G1|]. intros BL. destruct (G2 BL) as (x & Ix & E).
    exists (dset v x st). split; [rewrite E; do 2 f_equal; cbn; lia|now apply started_dset].
  - destruct (mh_outcome st k v A Hv) as [G1 G2].
    { destruct (proj2 S v Hv) as (x & Hx & [I|I]); [contradiction|]. now exists x. }
    split; [exact G1|]. intros BL. destruct (G2 BL) as (st' & E & H). exists st'. split; [rewrite E; do 2 f_equal; cbn; lia|].
    destruct H as [->|(x & Ix & ->)]; [exact S|now apply started_dset].
Qed.

Lemma dmem_mem v : dmem v ev = mem v (dkeys ev).
Proof. destruct (mem v (dkeys ev)) eqn:E; [now apply dmem_In, mem_In|now apply dmem_nIn, mem_nIn]. Qed.

Lemma free_unobserved : free_vars b ev = unobserved b ev.
Proof. unfold free_vars, unobserved. apply filter_ext. intros v. now rewrite dmem_mem. Qed.

Lemma unobserved_spec v : In v (unobserved b ev) <-> In v (bnames b) /\ ~ In v (dkeys ev).
Proof. rewrite <- free_unobserved. apply free_spec, SN. Qed.

Lemma fold_outcome t vs : incl vs (unobserved b ev) -> forall st k, started b ev st ->
  ((exists v, In v vs /\ blocked b ev v) -> foldM (change_one t g b) vs (st, k) = Err ValueError) /\
  ((forall v, In v vs -> ~ blocked b ev v) -> exists st', foldM (change_one t g b) vs (st, k) = Ok (st', k + length vs * (calls_per_step t - 1)) /\ started b ev st').
Proof.
  induction vs as [|v vs IH]; intros I st k S.
  - split; [intros (v & [] & _)|]. intros _. exists st. split; [cbn; now rewrite Nat.add_0_r|exact S].
  - destruct (proj1 (unobserved_spec v) (I v (or_introl eq_refl))) as [Hv N].
    destruct (one_outcome t st k v S Hv N) as [O1 O2]. cbn [foldM]. destruct (blocked_dec ev v) as [BL|BL].
    + rewrite (O1 BL). split; [reflexivity|]. intros H. exfalso. exact (H v (or_introl eq_refl) BL).
    + destruct (O2 BL) as (st1 & E & S1). rewrite E. cbn [rbind].
      destruct (IH (fun x H => I x (or_intror H)) st1 (k + (calls_per_step t - 1)) S1) as [I1 I2]. split.
      * intros (u & [<-|Hu] & W); [contradiction|]. apply I1. now exists u.
      * intros H. destruct I2 as (st2 & E2 & S2); [intros u Hu; apply H; now right|]. exists st2. split; [|exact S2].
        rewrite E2. do 2 f_equal. cbn [length]. lia.
Qed.

(** Steps repeated. *)
Section Iter.
Variable f : state * nat -> res (state * nat).
Variables (bad : nat -> Prop) (c : nat) (e : exc).
Hypothesis DEC : forall k, bad k \/ ~ bad k.
Hypothesis F1 : forall st k, started b ev st -> bad k -> f (st, k) = Err e.
Hypothesis F2 : forall st k, started b ev st -> ~ bad k -> exists st', f (st, k) = Ok (st', k + c) /\ started b ev st'.

Lemma burn_outcome n : forall st k, started b ev st ->
  ((exists i, i < n /\ bad (k + i * c)) -> burn f n (st, k) = Err e) /\
  ((forall i, i < n -> ~ bad (k + i * c)) -> exists st', burn f n (st, k) = Ok (st', k + n * c) /\ started b ev st').
Proof.
  induction n as [|n IH]; intros st k S.
  - split; [intros (i & H & _); lia|]. intros _. exists st. split; [cbn; now rewrite Nat.add_0_r|exact S].
  - cbn [burn]. destruct (DEC k) as [B|B].
    + rewrite (F1 st k S B). split; [reflexivity|]. intros H. exfalso. apply (H 0); [lia|]. now rewrite Nat.add_0_r.
    + destruct (F2 st k S B) as (s1 & E & S1). rewrite E. cbn [rbind]. destruct (IH s1 (k + c) S1) as [I1 I2]. split.
      * intros (i & Hi & Bi). destruct i as [|i]; [rewrite Nat.add_0_r in Bi; contradiction|]. apply I1. exists i. split; [lia|].
        now replace (k + c + i * c) with (k + Datatypes.S i * c) by (cbn; lia).
      * intros H. destruct I2 as (s2 & E2 & S2).
        { intros i Hi. replace (k + c + i * c) with (k + Datatypes.S i * c) by (cbn; lia). apply H. lia. }
        exists s2. split; [rewrite E2; do 2 f_equal; cbn; lia|exact S2].
Qed.

Lemma yields_outcome n : forall st k, started b ev st ->
  ((exists i, i < n /\ bad (k + i * c)) -> yields f n (st, k) = Err e) /\
  ((forall i, i < n -> ~ bad (k + i * c)) -> exists l, yields f n (st, k) = Ok l /\ length l = n /\ Forall (started b ev) l).
Proof.
  induction n as [|n IH]; intros st k S.
  - split; [intros (i & H & _); lia|]. intros _. exists []. repeat split. constructor.
  - cbn [yields]. destruct (DEC k) as [B|B].
    + rewrite (F1 st k S B). split; [reflexivity|]. intros H. exfalso. apply (H 0); [lia|]. now rewrite Nat.add_0_r.
    + destruct (F2 st k S B) as (s1 & E & S1). rewrite E. cbn [rbind]. destruct (IH s1 (k + c) S1) as [I1 I2]. split.
      * intros (i & Hi & Bi). destruct i as [|i]; [rewrite Nat.add_0_r in Bi; contradiction|]. rewrite I1; [reflexivity|]. exists i. split; [lia|].
        now replace (k + c + i * c) with (k + Datatypes.S i * c) by (cbn; lia).
      * intros H. destruct I2 as (l & E2 & L & A).
        { intros i Hi. replace (k + c + i * c) with (k + Datatypes.S i * c) by (cbn; lia). apply H. lia. }
        exists (s1 :: l). rewrite E2. cbn [rbind fst]. split; [reflexivity|]. split; [cbn; now rewrite L|now constructor].
Qed.

Lemma iter_outcome m n st k : started b ev st ->
  ((exists i, i < m + n /\ bad (k + i * c)) -> (let* acc := burn f m (st, k) in yields f n acc) = Err e) /\
  ((forall i, i < m + n -> ~ bad (k + i * c)) -> exists l, (let* acc := burn f m (st, k) in yields f n acc) = Ok l /\ length l = n /\ Forall (started b ev) l).
Proof.
  intros S. destruct (burn_outcome m st k S) as [B1 B2].
  assert (D : (exists i, i < m /\ bad (k + i * c)) \/ forall i, i < m -> ~ bad (k + i * c)).
  { clear - DEC. induction m as [|m IH]; [right; intros i Hi; lia|]. destruct (DEC (k + m * c)) as [X|X]; [left; exists m; split; [lia|exact X]|].
    destruct IH as [(i & Hi & B)|H]; [left; exists i; split; [lia|exact B]|]. right. intros i Hi. destruct (Nat.eq_dec i m) as [->|N]; [exact X|apply H; lia]. }
  destruct D as [D|D].
  - rewrite (B1 D). split; [reflexivity|]. intros H. exfalso. destruct D as (i & Hi & B). apply (H i); [lia|exact B].
  - destruct (B2 D) as (s & E & S1). rewrite E. cbn [rbind]. destruct (yields_outcome n s (k + m * c) S1) as [Y1 Y2]. split.
    + intros (i & Hi & B). apply Y1. exists (i - m). destruct (Nat.lt_ge_cases i m) as [L|L]; [exfalso; exact (D i L B)|]. split; [lia|].
      replace (k + m * c + (i - m) * c) with (k + i * c) by nia. exact B.
    + intros H. apply Y2. intros i Hi. replace (k + m * c + i * c) with (k + (m + i) * c) by nia. apply H. lia.
Qed.
End Iter.

Definition hit (full : bool) (k : nat) : Prop :=
  if full then exists v, In v (unobserved b ev) /\ blocked b ev v
  else exists v, nth_error (unobserved b ev) (Nat.modulo (choose g k) (length (unobserved b ev))) = Some v /\ blocked b ev v.

Lemma exists_dec (l : list string) : (exists v, In v l /\ blocked b ev v) \/ forall v, In v l -> ~ blocked b ev v.
Proof.
  induction l as [|v l IH]; [right; intros v []|]. destruct (blocked_dec ev v) as [B|B]; [left; exists v; split; [now left|exact B]|].
  destruct IH as [(u & Hu & U)|H]; [left; exists u; split; [now right|exact U]|]. right. intros u [<-|Hu]; auto.
Qed.

Lemma hit_dec full k : hit full k \/ ~ hit full k.
Proof.
  unfold hit. destruct full.
  - destruct (exists_dec (unobserved b ev)) as [H|H]; [now left|]. right. intros (v & Hv & B). exact (H v Hv B).
  - destruct (nth_error _ _) as [v|]; [|right; intros (v & E & _); discriminate].
    destruct (blocked_dec ev v) as [B|B]; [left; now exists v|]. right. intros (u & E & U). injection E as <-. contradiction.
Qed.

Definition stride (t : transition) (full : bool) : nat :=
  if full then length (unobserved b ev) * (calls_per_step t - 1) else calls_per_step t.

Lemma choice_pick {A} k (l : list A) : l <> [] -> exists v, nth_error l (Nat.modulo (choose g k) (length l)) = Some v /\ choice g k l = Ok (v, S k).
Proof.
  intros N. destruct l as [|x l]; [contradiction|]. eexists. split; [|reflexivity]. apply nth_error_nth'. apply Nat.mod_upper_bound. discriminate.
Qed.

Lemma step_outcome t full st k : full = true \/ unobserved b ev <> [] -> started b ev st ->
  (hit full k -> step t full g b (unobserved b ev) (st, k) = Err ValueError) /\
  (~ hit full k -> exists st', step t full g b (unobserved b ev) (st, k) = Ok (st', k + stride t full) /\ started b ev st').
Proof.
  intros F S. unfold step, hit, stride. destruct full.
  - destruct (fold_outcome t (unobserved b ev) (incl_refl _) st k S) as [O1 O2]. split; [exact O1|]. intros H. apply O2.
    intros v Hv B. apply H. now exists v.
  - destruct F as [F|F]; [discriminate|]. cbn [fst snd]. destruct (choice_pick k (unobserved b ev) F) as (v & Ev & EC). rewrite EC, Ev. cbn [rbind].
    destruct (proj1 (unobserved_spec v) (nth_error_In _ _ Ev)) as [Hv N].
    destruct (one_outcome t st (Datatypes.S k) v S Hv N) as [O1 O2]. split.
    + intros (u & E & B). injection E as <-. exact (O1 B).
    + intros H. destruct O2 as (st' & E & S'); [intros B; apply H; now exists v|]. exists st'. split; [|exact S'].
      rewrite E. do 2 f_equal. destruct t; cbn; lia.
Qed.

Lemma visited_hit t full k n v : visited t full g k (unobserved b ev) n v -> blocked b ev v -> exists i, i < n /\ hit full (k + i * stride t full).
Proof.
  unfold visited, hit, stride. destruct full.
  - intros [L I] B. exists 0. split; [exact L|]. now exists v.
  - intros (i & L & E) B. exists i. split; [exact L|]. now exists v.
Qed.

Lemma hit_visited t full k n i : i < n -> hit full (k + i * stride t full) -> exists v, visited t full g k (unobserved b ev) n v /\ blocked b ev v.
Proof.
  unfold visited, hit, stride. intros L. destruct full.
  - intros (v & I & B). exists v. split; [split; [lia|exact I]|exact B].
  - intros (v & E & B). exists v. split; [exists i; split; [exact L|exact E]|exact B].
Qed.

Lemma unobserved_nil : unobserved b ev = [] <-> incl (bnames b) (dkeys ev).
Proof.
  split.
  - intros E v Hv. destruct (in_dec string_dec v (dkeys ev)) as [I|N]; [exact I|]. exfalso.
    assert (In v (unobserved b ev)) by (apply unobserved_spec; now split). rewrite E in H. destruct H.
  - intros I. destruct (unobserved b ev) as [|v l] eqn:E; [reflexivity|]. exfalso.
    destruct (proj1 (unobserved_spec v)) as [Hv N]; [rewrite E; now left|]. exact (N (I v Hv)).
Qed.

Lemma chain_outcome t burnIn full N st k : started b ev st ->
  (forall x, chain_fault t full g k (burnIn + N) b ev x -> generate_chain t burnIn full g b N (st, k) (Some ev) = Err x) /\
  ((forall x, ~ chain_fault t full g k (burnIn + N) b ev x) ->
    exists l, generate_chain t burnIn full g b N (st, k) (Some ev) = Ok l /\ length l = N /\ Forall (started b ev) l).
Proof.
  intros S. unfold generate_chain. cbn [vars_to_change rbind]. rewrite free_unobserved.
  destruct full; [|destruct (unobserved b ev) as [|u us] eqn:EU].
  - destruct (iter_outcome (step t true g b (unobserved b ev)) (hit true) (stride t true) ValueError (hit_dec true)
      (fun st k S => proj1 (step_outcome t true st k (or_introl eq_refl) S)) (fun st k S => proj2 (step_outcome t true st k (or_introl eq_refl) S))
      burnIn N st k S) as [I1 I2].
    split.
    + intros x [F|v V B]; [discriminate|]. apply I1. exact (visited_hit t true k (burnIn + N) v V B).
    + intros H. apply I2. intros i Hi B. destruct (hit_visited t true k (burnIn + N) i Hi B) as (v & V & BV). apply (H ValueError). now apply (F_step t true g k _ b ev v).
  - destruct (iter_outcome (step t false g b []) (fun _ => True) 0 IndexError (fun _ => or_introl I)
      (fun st k _ _ => eq_refl) (fun st k _ X => False_ind _ (X I)) burnIn N st k S) as [I1 I2].
    split.
    + intros x F. destruct F as [_ L _|v V B]; [apply I1; exists 0; now split|]. exfalso. destruct V as (i & _ & E). rewrite EU in E.
      rewrite (proj2 (nth_error_None (@nil string) _)) in E by (cbn; lia). discriminate.
    + intros H. apply I2. intros i Hi. exfalso. apply (H IndexError). apply F_nothing; [reflexivity|lia|]. now apply unobserved_nil.
  - assert (NE : false = true \/ unobserved b ev <> []) by (right; congruence). rewrite <- EU.
    destruct (iter_outcome (step t false g b (unobserved b ev)) (hit false) (stride t false) ValueError (hit_dec false)
      (fun st k S => proj1 (step_outcome t false st k NE S)) (fun st k S => proj2 (step_outcome t false st k NE S))
      burnIn N st k S) as [I1 I2].
    split.
    + intros x F. destruct F as [_ _ F|v V B]; [apply unobserved_nil in F; congruence|]. apply I1. exact (visited_hit t false k (burnIn + N) v V B).
    + intros H. apply I2. intros i Hi B. destruct (hit_visited t false k (burnIn + N) i Hi B) as (v & V & BV). apply (H ValueError). now apply (F_step t false g k _ b ev v).
Qed.

Lemma chain_fault_dec t full k n : (exists x, chain_fault t full g k n b ev x) \/ forall x, ~ chain_fault t full g k n b ev x.
Proof.
  assert (D : (exists i, i < n /\ hit full (k + i * stride t full)) \/ forall i, i < n -> ~ hit full (k + i * stride t full)).
  { induction n as [|m IH]; [right; intros i Hi; lia|]. destruct (hit_dec full (k + m * stride t full)) as [X|X]; [left; exists m; split; [lia|exact X]|].
    destruct IH as [(i & Hi & B)|H]; [left; exists i; split; [lia|exact B]|]. right. intros i Hi. destruct (Nat.eq_dec i m) as [->|N]; [exact X|apply H; lia]. }
  destruct D as [(i & Hi & B)|D].
  - destruct (hit_visited t full k n i Hi B) as (v & V & BV). left. exists ValueError. now apply (F_step t full g k n b ev v).
  - assert (ND : (full = false /\ 0 < n /\ unobserved b ev = []) \/ ~ (full = false /\ 0 < n /\ unobserved b ev = [])).
    { destruct full; [right; intros (H & _); discriminate|]. destruct n; [right; intros (_ & H & _); lia|].
      destruct (unobserved b ev); [left; split; [reflexivity|]; split; [lia|reflexivity]|right; intros (_ & _ & H); discriminate]. }
    destruct ND as [(A & B & C)|ND]; [left; exists IndexError; apply F_nothing; [exact A|exact B|now apply unobserved_nil]|].
    right. intros x [A B C|v V BV]; [apply ND; split; [exact A|]; split; [exact B|now apply unobserved_nil]|].
    destruct (visited_hit t full k n v V BV) as (i & Hi & HB). exact (D i Hi HB).
Qed.

(** ** The first state *)
Variable order : list string.
Hypothesis TO : topological b order.

Let in_order v : In v order <-> In v (bnames b).
Proof. split; intros H; [eapply Permutation_in; [symmetry; apply TO|exact H]|eapply Permutation_in; [apply TO|exact H]]. Qed.

Definition begun (pre : list string) (st : state) : Prop :=
  keeps ev st /\ forall v, In v pre -> exists y, dget v st = Some y /\ (In v (dkeys ev) \/ In y (values_of b v)).

Lemma undrawable_dec n : In n (bnodes b) -> undrawable b ev n \/ ~ undrawable b ev n.
Proof.
  intros Hn. unfold undrawable. destruct (in_dec string_dec (dn_name n) (dkeys ev)) as [I|N]; [right; tauto|].
  assert (D : forall l, (exists p, In p l /\ wrong_value b ev p) \/ ~ exists p, In p l /\ wrong_value b ev p).
  { induction l as [|p l IH]; [right; intros (p & [] & _)|]. destruct (wrongb ev p) eqn:W.
    - left. exists p. split; [now left|now apply wrongb_spec].
    - destruct IH as [(q & Hq & Q)|H]; [left; exists q; split; [now right|exact Q]|]. right. intros (q & [<-|Hq] & Q); [apply wrongb_spec in Q; congruence|].
      apply H. now exists q. }
  destruct (D (map fst (dn_parents n))) as [P|P]; [left; auto|right; tauto].
Qed.

Lemma begun_wrong pre st p : begun pre st -> In p pre -> In p (bnames b) -> (wrong_value b st p <-> wrong_value b ev p).
Proof.
  intros [K S] Hp Hb. unfold wrong_value. split; intros [_ (x & Hx & N)]; (split; [exact Hb|]); exists x; (split; [|exact N]).
  - destruct (S p Hp) as (y & Hy & [I|I]).
    + apply dget_key in I as (z & Z). pose proof (K _ _ Z). congruence.
    + exfalso. apply N. congruence.
  - now apply K.
Qed.

Lemma draw_outcome n st k pre : In n (bnodes b) -> ~ In (dn_name n) (dkeys ev) -> incl (map fst (dn_parents n)) pre -> begun pre st -> forall cs,
  (undrawable b ev n -> sample_value g k n st cs true = Err ValueError) /\
  (~ undrawable b ev n -> exists y, In y (dn_values n) /\ sample_value g k n st cs true = Ok (y, S k)).
Proof.
  intros Hn No PP BG cs.
  assert (NE : dn_values n <> []) by apply (wn_values _ _ (wb_nodes _ WB _ Hn)).
  assert (NP : ~ In (dn_name n) (map fst (dn_parents n))).
  { pose proof (wn_parents _ _ (wb_nodes _ WB _ Hn)) as N. now inversion N. }
  assert (PB : forall p, In p (map fst (dn_parents n)) -> In p (bnames b)) by (intros p Hp; eapply (fam_names b WB n); [exact Hn|now right]).
  split; intros U.
  - destruct U as (_ & _ & p & Hp & W). unfold sample_value. destruct (dn_values n) as [|x l] eqn:EV; [contradiction|].
    rewrite mapM_head with (e := ValueError); [reflexivity|]. unfold get_markov_prob. rewrite (sp_fault n (dset (dn_name n) x st) x); [reflexivity|exact Hn| |apply dget_dset_eq|].
    + intros u [<-|Hu]; [exists x; apply dget_dset_eq|]. apply assigned_dset with (l := map fst (dn_parents n)); [|exact Hu].
      intros q Hq. destruct (proj2 BG q (PP q Hq)) as (y & Y & _). now exists y.
    + exists p. split; [now right|]. apply wrong_dset; [intros ->; contradiction|]. apply (begun_wrong pre st p BG (PP p Hp) (PB p Hp)), W.
  - assert (FW : mapM (fun y => get_markov_prob n y cs (dset (dn_name n) y st) true) (dn_values n) = Ok (conditional n st)).
    { apply (forward_weights b SN n st st Hn); [|reflexivity]. intros p Hp. destruct (proj2 BG p (PP p Hp)) as (y & Y & H). exists y. split; [exact Y|].
      destruct (in_dec string_dec y (values_of b p)) as [I|N]; [exact I|]. exfalso. apply U. split; [exact Hn|]. split; [exact No|]. exists p. split; [exact Hp|].
      apply (begun_wrong pre st p BG (PP p Hp) (PB p Hp)). split; [exact (PB p Hp)|]. now exists y. }
    exact (sv_total g k n st cs true _ FW (conditional_nonneg b SN n st Hn) (proj1 (RG k)) (proj2 (RG k)) NE).
Qed.

Lemma draws_outcome : forall post pre st k, order = pre ++ post -> begun pre st ->
  ((exists n, In (dn_name n) post /\ undrawable b ev n) -> foldM (sample_one g b ev) post (st, k) = Err ValueError) /\
  ((forall n, In (dn_name n) post -> ~ undrawable b ev n) ->
    exists st', foldM (sample_one g b ev) post (st, k) = Ok (st', k + length (unset ev post)) /\ begun order st').
Proof.
  induction post as [|v post IH]; intros pre st k E S.
  { split; [intros (n & [] & _)|]. intros _. exists st. rewrite app_nil_r in E. subst. split; [cbn; now rewrite Nat.add_0_r|exact S]. }
  assert (Hv : In v (bnames b)) by (apply in_order; rewrite E; apply in_or_app; right; now left).
  assert (E' : order = (pre ++ [v]) ++ post) by now rewrite <- app_assoc.
  cbn [foldM]. unfold sample_one at 1 3. cbn [fst snd]. unfold unset. cbn [filter]. fold (unset ev post). destruct (dmem v ev) eqn:M; cbn [negb].
  - cbn [rbind]. apply dmem_In in M. destruct (IH (pre ++ [v]) st k E') as [I1 I2].
    { split; [apply S|]. intros u Hu. apply in_app_or in Hu as [Hu|[<-|[]]]; [now apply S|].
      apply dget_key in M as M'. destruct M' as (y & Y). exists y. split; [now apply S|now left]. }
    split.
    + intros (n & [En|Hn] & U); [exfalso; apply (proj1 (proj2 U)); now rewrite <- En|]. apply I1. now exists n.
    + intros H. apply I2. intros n Hn. apply H. now right.
  - apply dmem_nIn in M. destruct (node_of b SN v Hv) as (n & Hn & N & GN & V & NE & ND). rewrite GN. cbn [rbind].
    destruct (children_ok b WB WG EM ON v Hv) as (cs & GC & _). rewrite GC. cbn [rbind].
    assert (PP : incl (map fst (dn_parents n)) pre) by (eapply TO; eauto). rewrite <- N in M.
    destruct (draw_outcome n st k pre Hn M PP S cs) as [D1 D2].
    destruct (undrawable_dec n Hn) as [U|U].
    + rewrite (D1 U). split; [reflexivity|]. intros H. exfalso. apply (H n); [now left|exact U].
    + destruct (D2 U) as (y & Hy & Ey). rewrite Ey. cbn [rbind]. destruct (IH (pre ++ [v]) (dset v y st) (Datatypes.S k) E') as [I1 I2].
      { split; [apply keeps_dset; [apply S|now rewrite <- N]|].
        intros u Hu. rewrite dget_dset. destruct (String.eqb_spec u v) as [->|X]; [exists y; split; [reflexivity|right; now rewrite V]|].
        apply in_app_or in Hu as [Hu|[Hu|[]]]; [now apply S|congruence]. }
      split.
      * intros (m & [Em|Hm] & Um).
        -- exfalso. assert (m = n) by (apply (node_unique b WB); [apply Um|exact Hn|congruence]). subst m. contradiction.
        -- apply I1. now exists m.
      * intros H. destruct I2 as (st' & E2 & S2); [intros m Hm; apply H; now right|]. exists st'. split; [|exact S2]. rewrite E2. do 2 f_equal. cbn [length]. lia.
Qed.

Lemma unset_length : length (unset ev order) = length (unobserved b ev).
Proof.
  unfold unset, unobserved. apply Permutation_length.
  assert (P : Permutation order (border b)) by (etransitivity; [symmetry; apply TO|apply (wg_nodes _ WG)]).
  rewrite (filter_ext (fun v => negb (mem v (dkeys ev))) (fun v => negb (dmem v ev))) by (intros v; now rewrite dmem_mem). clear - P.
  induction P; cbn [filter]; try destruct (negb _); try destruct (negb _); eauto using Permutation.
Qed.

Lemma sample_outcome k : NoDup (dkeys ev) ->
  ((exists n, undrawable b ev n) -> get_sample g k b order ev = Err ValueError) /\
  ((forall n, ~ undrawable b ev n) -> exists st, get_sample g k b order ev = Ok (st, k + length (unobserved b ev)) /\ started b ev st).
Proof.
  intros ND. unfold get_sample. destruct (draws_outcome order [] (fold_left (fun d p => dset (fst p) (snd p) d) ev []) k eq_refl) as [D1 D2].
  { split; [|intros v []]. intros v x H. rewrite dget_fold_dset by exact ND. now rewrite H. }
  split.
  - intros (n & U). apply D1. exists n. split; [|exact U]. apply in_order. exact (in_map dn_name _ _ (proj1 U)).
  - intros H. destruct D2 as (st & E & S); [intros n _; apply H|]. exists st. rewrite <- unset_length. split; [exact E|].
    split; [apply S|]. intros v Hv. apply S. now apply in_order.
Qed.

(** ** Looking up the variables *)
Lemma get_node_none v : ~ In v (bnames b) -> get_node b v = Err PlainException.
Proof.
  intros N. unfold get_node. destruct (find _ _) as [n|] eqn:E; [|reflexivity]. exfalso. apply find_some in E as [I Q].
  apply String.eqb_eq in Q. apply N. subst v. exact (in_map dn_name _ _ I).
Qed.

Lemma lookup_outcome vs : forall d, (exists v, In v vs /\ ~ In v (bnames b)) ->
  foldM (fun d v => let* n := get_node b v in Ok (dset v (dn_values n) d)) vs d = Err PlainException.
Proof.
  intros d (v & Hv & N). apply foldM_fault.
  - intros x u _. destruct (in_dec string_dec u (bnames b)) as [I|J].
    + destruct (node_of b SN u I) as (n & _ & _ & -> & _). right. eexists. reflexivity.
    + left. now rewrite (get_node_none u J).
  - exists v. split; [exact Hv|]. intros x. now rewrite (get_node_none v N).
Qed.

(** ** Counting *)
Lemma count_outcome vv l : NoDup (dkeys vv) -> (forall v vals, In (v, vals) vv -> In v (bnames b) /\ vals = values_of b v) -> Forall (started b ev) l ->
  (l = [] -> from_samples l vv = Err NonFinite) /\
  (l <> [] -> (exists v, In v (dkeys vv) /\ wrong_value b ev v) -> from_samples l vv = Err ValueError) /\
  (l <> [] -> (forall v, In v (dkeys vv) -> ~ wrong_value b ev v) -> exists f, from_samples l vv = Ok f).
Proof.
  intros ND HV F. split; [|split].
  - intros ->. unfold from_samples. cbn [foldM rbind].
    assert (Z : asum (np_zeros (map (fun p => length (snd p)) vv)) = 0%Qc).
    { unfold asum. assert (B : forall x, In x (data (np_zeros (map (fun p => length (snd p)) vv))) -> x = 0%Qc).
      { unfold np_zeros, tabulate. cbn [data]. intros x Hx. apply in_map_iff in Hx as (i & <- & _). reflexivity. }
      revert B. generalize (data (np_zeros (map (fun p => length (snd p)) vv))) as s. induction s as [|a s IH]; intros B; [reflexivity|].
      cbn [qsum]. rewrite IH by (intros; apply B; now right). rewrite (B a (or_introl eq_refl)). ring. }
    rewrite Z. rewrite (proj2 (qeqb_true 0%Qc 0%Qc) eq_refl). reflexivity.
  - intros NE (v & Hv & W). unfold from_samples. destruct l as [|s l]; [contradiction|]. cbn [foldM].
    assert (S : started b ev s) by (inversion F; assumption).
    rewrite (mapM_fault _ ValueError); [reflexivity| |].
    + intros [u vals] Hu. cbn [fst snd]. destruct (HV u vals Hu) as [Hb ->]. destruct (proj2 S u Hb) as (x & Hx & _). unfold dget_err. rewrite Hx. cbn [rbind].
      destruct (in_dec string_dec x (values_of b u)) as [J|J]; [right; eexists; now apply py_index_ok|left; now apply py_index_err].
    + apply dget_key in Hv as (vals & D). apply dget_In in D. exists (v, vals). split; [exact D|]. cbn [fst snd]. destruct (HV v vals D) as [Hb ->].
      apply (started_wrong s v S Hb) in W. destruct W as (_ & x & Hx & N). unfold dget_err. rewrite Hx. cbn [rbind]. now apply py_index_err.
  - intros NE H. destruct (samples_named vv l ND) as (f & E & _); [|exact NE| |now exists f].
    + intros v vals Hl. destruct (HV v vals Hl) as [Hb ->]. destruct (node_of b SN v Hb) as (n & _ & _ & _ & -> & _ & Q). exact Q.
    + intros s Hs v vals Hl. destruct (HV v vals Hl) as [Hb ->]. rewrite Forall_forall in F. specialize (F s Hs).
      destruct (proj2 F v Hb) as (x & Hx & _). exists x. split; [exact Hx|]. destruct (in_dec string_dec x (values_of b v)) as [J|J]; [exact J|]. exfalso.
      apply (H v); [now apply (in_map fst) in Hl|]. apply (started_wrong s v F Hb). split; [exact Hb|]. now exists x.
Qed.

Lemma undrawable_all : (exists n, undrawable b ev n) \/ forall n, ~ undrawable b ev n.
Proof.
  assert (D : forall l, incl l (bnodes b) -> (exists n, In n l /\ undrawable b ev n) \/ forall n, In n l -> ~ undrawable b ev n).
  { induction l as [|n l IH]; intros I; [right; intros n []|]. destruct (undrawable_dec n (I n (or_introl eq_refl))) as [U|U]; [left; exists n; split; [now left|exact U]|].
    destruct IH as [(m & Hm & Um)|H]; [intros x Hx; apply I; now right|left; exists m; split; [now right|exact Um]|].
    right. intros m [<-|Hm]; auto. }
  destruct (D (bnodes b) (incl_refl _)) as [(n & _ & U)|H]; [left; now exists n|]. right. intros n U. exact (H n (proj1 U) U).
Qed.

Lemma unknown_dec vs : (exists v, In v vs /\ ~ In v (bnames b)) \/ incl vs (bnames b).
Proof.
  induction vs as [|v vs IH]; [right; intros v []|]. destruct (in_dec string_dec v (bnames b)) as [I|N]; [|left; exists v; split; [now left|exact N]].
  destruct IH as [(u & Hu & U)|H]; [left; exists u; split; [now right|exact U]|]. right. intros u [<-|Hu]; auto.
Qed.

Lemma wrong_dec vs : (exists v, In v vs /\ wrong_value b ev v) \/ forall v, In v vs -> ~ wrong_value b ev v.
Proof.
  induction vs as [|v vs IH]; [right; intros v []|]. destruct (wrongb ev v) eqn:W; [left; exists v; split; [now left|now apply wrongb_spec]|].
  destruct IH as [(u & Hu & U)|H]; [left; exists u; split; [now right|exact U]|]. right. intros u [<-|Hu]; auto. intros X. apply wrongb_spec in X. congruence.
Qed.

Lemma mcmc_cases t full burnIn N vs : NoDup (dkeys ev) ->
  (exists x, mcmc_fault t full g burnIn N b ev vs x /\ mcmc_marginals t burnIn full N g b order vs ev = Err x) \/
  ((forall x, ~ mcmc_fault t full g burnIn N b ev vs x) /\ exists f, mcmc_marginals t burnIn full N g b order vs ev = Ok f).
Proof.
  intros ND. unfold mcmc_marginals. destruct (sample_outcome 0 ND) as [S1 S2]. destruct undrawable_all as [(n & U)|NU].
  { left. exists ValueError. split; [now apply M_draw with n|]. now rewrite (S1 (ex_intro _ n U)). }
  destruct (S2 NU) as (st & ES & ST). rewrite ES. cbn [rbind Nat.add]. destruct (unknown_dec vs) as [X|IV].
  { left. exists PlainException. destruct X as (v & Hv & N'). split; [now apply M_unknown with v|]. now rewrite (lookup_outcome vs [] (ex_intro _ v (conj Hv N'))). }
  destruct (collect_values b WB vs [] IV) as (vv & EV & NV & KV & HV); [discriminate|constructor|]. rewrite EV. cbn [rbind].
  destruct (chain_outcome t burnIn full N st (length (unobserved b ev)) ST) as [C1 C2].
  destruct (chain_fault_dec t full (length (unobserved b ev)) (burnIn + N)) as [(x & CF)|NC].
  { left. exists x. split; [now apply M_chain|]. now rewrite (C1 x CF). }
  destruct (C2 NC) as (l & EC & L & F). rewrite EC. cbn [rbind].
  assert (VN : forall v l, In (v, l) vv -> In v (bnames b) /\ l = values_of b v).
  { intros v vals Hl. pose proof (In_dget v vals vv NV Hl) as D. split; [|now apply HV]. apply IV.
    apply dget_Some_key, KV in D. destruct D as [[]|D]; exact D. }
  destruct (count_outcome vv l NV VN F) as (K1 & K2 & K3). destruct N as [|N].
  { left. exists NonFinite. split; [now apply M_empty|]. apply K1. now apply length_zero_iff_nil. }
  assert (NE : l <> []) by (intros ->; discriminate).
  destruct (wrong_dec vs) as [(v & Hv & W)|NW].
  { left. exists ValueError. split; [apply M_count with v; auto; lia|]. apply (K2 NE). exists v. split; [|exact W]. apply KV. now right. }
  right. split; [|apply (K3 NE); intros v Hv; apply NW; apply KV in Hv as [[]|Hv]; exact Hv].
  intros x [n U|v _ Hv U|x' _ _ U|v _ _ _ _ Hv U|_ _ _ U]; [exact (NU n U)|exact (U (IV v Hv))|exact (NC _ U)|exact (NW v Hv U)|discriminate].
Qed.

Lemma mcmc_fault_one t full burnIn N vs x y : mcmc_fault t full g burnIn N b ev vs x -> mcmc_fault t full g burnIn N b ev vs y -> x = y.
Proof.
  assert (CH : forall n x y, chain_fault t full g (length (unobserved b ev)) n b ev x -> chain_fault t full g (length (unobserved b ev)) n b ev y -> x = y).
  { assert (Q : forall n v, full = false -> incl (bnames b) (dkeys ev) -> ~ visited t full g (length (unobserved b ev)) (unobserved b ev) n v).
    { intros n v -> I V. apply unobserved_nil in I. unfold visited in V. rewrite I in V. destruct V as (i & _ & E).
      rewrite (proj2 (nth_error_None (@nil string) _)) in E by (cbn; lia). discriminate. }
    intros n u w [A _ C|v V B] [A' _ C'|v' V' B']; try reflexivity; exfalso; eapply Q; eauto. }
  intros A B. destruct A, B; try reflexivity; try (exfalso; match goal with
    | U : undrawable b ev ?n, H : forall n, ~ undrawable b ev n |- _ => exact (H n U)
    | I : incl vs (bnames b), Hv : In ?v vs, U : ~ In ?v (bnames b) |- _ => exact (U (I v Hv))
    | U : chain_fault _ _ _ _ _ _ _ ?x, H : forall x, ~ chain_fault _ _ _ _ _ _ _ x |- _ => exact (H x U)
    | E : N = 0, L : 0 < N |- _ => lia
    end).
  eapply CH; eassumption.
Qed.
End Net.
