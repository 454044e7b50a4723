(** Reading and writing single entries of a node's table. *)
From Verif Require Import Base BaseFacts NDArray NDArrayFacts Factor Exact Spec Node Network NetSpec NetFacts
  NetInv NetOps NetOps2 NetRename NetTop NetView.

Lemma position_idx x l : position x l = idx x l.
Proof. reflexivity. Qed.

(** A list of selectors and the index lists that read the same entries. *)
Definition same_sel (s : sel) (l : list nat) : Prop :=
  match s with Fix i => l = [i] | Upto m => l = seq 0 m end.
Definition sel_in (s : sel) (d : nat) : Prop :=
  match s with Fix i => i < d | Upto m => m = d end.

Lemma sel_ok_in s sh : Forall2 sel_in s sh -> sel_ok sh s = true.
Proof.
  induction 1 as [|[i|m] d s sh H F IH]; [reflexivity| |]; cbn in *.
  - apply Nat.ltb_lt in H. rewrite H. exact IH.
  - exact IH.
Qed.

Lemma nths_match s ls : Forall2 same_sel s ls -> forall sh ix, Forall2 sel_in s sh -> inb (map (@length nat) ls) ix ->
  sel_match s (nths ls ix) = true /\ inb sh (nths ls ix).
Proof.
  induction 1 as [|se l s ls H F IH]; intros sh ix FS B.
  - inversion FS; subst. inversion B; subst. split; [reflexivity|constructor].
  - inversion FS as [|? d ? sh' L FS']; subst. inversion B as [|k ? ix' ? LK B']; subst.
    destruct (IH sh' ix' FS' B') as [A1 A2]. destruct se as [i|m]; cbn in H, L; subst l.
    + cbn in LK. assert (k = 0) by lia. subst k. cbn. rewrite Nat.eqb_refl, A1. split; [reflexivity|]. constructor; assumption.
    + subst m. rewrite seq_length in LK. cbn [nths sel_match]. rewrite seq_nth by exact LK. cbn [Nat.add].
      apply Nat.ltb_lt in LK as LK'. rewrite LK', A1. split; [reflexivity|]. constructor; assumption.
Qed.

Lemma prodn_filter1 sh : prodn (filter (fun d => negb (Nat.eqb d 1)) sh) = prodn sh.
Proof.
  induction sh as [|d sh IH]; [reflexivity|]. cbn. destruct (Nat.eqb_spec d 1) as [->|N]; cbn; rewrite IH; lia.
Qed.

Lemma real_squeeze a : real_array a -> real_array (squeeze a).
Proof. unfold real_array. cbn. rewrite prodn_filter1. auto. Qed.

Section Node.
Context (h : heap) (n : node) (vals : string -> list string).
Context (PV : forall q, In q (nporder n) -> parent_values h n q = Ok (vals q)).

(** The selector for parent [q]. *)
Definition selector (pv : dict string) (q : string) : sel :=
  match dget q pv with Some y => Fix (idx y (vals q)) | None => Upto (length (vals q)) end.

Lemma sels_ok pv : (forall q y, In q (nporder n) -> dget q pv = Some y -> In y (vals q)) ->
  mapM (parent_sel h n pv) (nporder n) = Ok (map (selector pv) (nporder n)).
Proof.
  intros G. apply mapM_total. intros q Iq. unfold parent_sel, selector. rewrite (PV q Iq). cbn.
  destruct (dget q pv) as [y|] eqn:D; [|reflexivity]. rewrite (py_index_ok y _ (G q y Iq D)). reflexivity.
Qed.

Lemma sels_unknown pv q y : In q (nporder n) -> dget q pv = Some y -> ~ In y (vals q) ->
  mapM (parent_sel h n pv) (nporder n) = Err ValueError.
Proof.
  intros Iq D NI. induction (nporder n) as [|p l IH]; [destruct Iq|]. cbn.
  assert (E1 : parent_sel h n pv p = Err ValueError \/ exists s, parent_sel h n pv p = Ok s).
  { unfold parent_sel. rewrite PV by (left; reflexivity). cbn. destruct (dget p pv) as [z|]; [|right; eexists; reflexivity].
    unfold py_index. destruct (index_of z (vals p)); [right; eexists; reflexivity|left; reflexivity]. }
  destruct E1 as [->|(s & Es)]; [reflexivity|]. rewrite Es. cbn. destruct Iq as [->|Iq].
  - unfold parent_sel in Es. rewrite PV in Es by (left; reflexivity). cbn in Es. rewrite D, (py_index_err y _ NI) in Es. discriminate.
  - rewrite IH; [reflexivity|intros z Iz; apply PV; right; exact Iz|exact Iq].
Qed.

Lemma selector_in pv q : In q (nporder n) -> (forall y, dget q pv = Some y -> In y (vals q)) ->
  sel_in (selector pv q) (length (vals q)).
Proof.
  intros Iq G. unfold selector. destruct (dget q pv) as [y|]; cbn; [|reflexivity]. apply idx_lt. apply G. reflexivity.
Qed.

Lemma selectors_in pv l : incl l (nporder n) -> (forall q y, In q (nporder n) -> dget q pv = Some y -> In y (vals q)) ->
  Forall2 sel_in (map (selector pv) l) (map (fun q => length (vals q)) l).
Proof.
  intros IL G. induction l as [|q l IH]; cbn; constructor.
  - apply selector_in; [apply IL; left; reflexivity|]. intros y D. apply (G q y); [apply IL; left; reflexivity|exact D].
  - apply IH. intros z Hz. apply IL. right; exact Hz.
Qed.

(** Does the state match the parent values? *)
Definition matches (pv st : dict string) (l : list string) : bool :=
  forallb (fun q => match dget q pv with Some y => String.eqb (look st q) y | None => true end) l.

Lemma selectors_match pv st l : incl l (nporder n) ->
  (forall q y, In q (nporder n) -> dget q pv = Some y -> In y (vals q)) ->
  (forall q, In q (nporder n) -> In (look st q) (vals q)) ->
  sel_match (map (selector pv) l) (map (fun q => idx (look st q) (vals q)) l) = matches pv st l.
Proof.
  intros IL G S. induction l as [|q l IH]; [reflexivity|]. cbn [map matches forallb].
  assert (Iq : In q (nporder n)) by (apply IL; left; reflexivity).
  assert (E := IH (fun z Hz => IL z (or_intror Hz))). unfold matches in E.
  unfold selector at 1. destruct (dget q pv) as [y|] eqn:D; cbn [sel_match]; rewrite E.
  - f_equal. destruct (Nat.eqb_spec (idx y (vals q)) (idx (look st q) (vals q))) as [X|X].
    + symmetry. apply String.eqb_eq. symmetry. apply (idx_inj y (look st q) (vals q)); [exact (G q y Iq D)|apply S, Iq|exact X].
    + symmetry. apply eqb_neq_s. intros Y. apply X. rewrite Y. reflexivity.
  - assert (L : idx (look st q) (vals q) < length (vals q)) by (apply idx_lt, S, Iq). apply Nat.ltb_lt in L. rewrite L. reflexivity.
Qed.

(** get_probability's index lists, for single values. *)
Definition ones (pv : dict string) : dict pick := map (fun p => (fst p, One (snd p))) pv.

Lemma dget_ones pv q : dget q (ones pv) = option_map One (dget q pv).
Proof. induction pv as [|(k & y) pv IH]; [reflexivity|]. cbn. destruct (String.eqb q k); [reflexivity|exact IH]. Qed.

Definition index_list (pv : dict string) (q : string) : list nat :=
  match dget q pv with Some y => [idx y (vals q)] | None => seq 0 (length (vals q)) end.

Lemma picks_ok pv : (forall q y, In q (nporder n) -> dget q pv = Some y -> In y (vals q)) ->
  mapM (pick_index h n (ones pv)) (nporder n) = Ok (map (index_list pv) (nporder n)).
Proof.
  intros G. apply mapM_total. intros q Iq. unfold pick_index, index_list. rewrite (PV q Iq), dget_ones. cbn.
  destruct (dget q pv) as [y|] eqn:D; [|reflexivity]. cbn. rewrite (py_index_ok y _ (G q y Iq D)). reflexivity.
Qed.

Lemma same_lists pv l : Forall2 same_sel (map (selector pv) l) (map (index_list pv) l).
Proof.
  induction l as [|q l IH]; cbn; constructor; [|exact IH]. unfold selector, index_list. destruct (dget q pv); reflexivity.
Qed.
End Node.

Lemma ix_ok_sel s ls : Forall2 same_sel s ls -> forall sh, Forall2 sel_in s sh -> ix_ok sh ls = true.
Proof.
  intros F sh FS. unfold ix_ok. apply andb_true_iff. split.
  - apply Nat.eqb_eq. revert sh FS. induction F; intros sh FS; inversion FS; subst; cbn; [reflexivity|]. f_equal. auto.
  - revert sh FS. induction F as [|[i|m] l s ls H F IH]; intros sh FS; inversion FS; subst; [reflexivity| |]; cbn in *; subst.
    + cbn. apply Nat.ltb_lt in H2. rewrite H2. cbn. apply IH; assumption.
    + apply andb_true_iff. split; [|apply IH; assumption]. apply forallb_forall. intros k Hk. apply in_seq in Hk. apply Nat.ltb_lt. lia.
Qed.

Lemma reach_set_prob w i x p pv : reached w -> reached (fst (exec w (SetProb i x p pv))).
Proof. intros R. apply reached_call; [exact R|exact Logic.I]. Qed.

(** Legal states of a node's family. *)
Definition legal (w : world) (n : node) (st : dict string) : Prop :=
  In (look st (nname n)) (nvalues n) /\ forall q, In q (nporder n) -> In (look st q) (vals_of w q).

Definition known (w : world) (n : node) (pv : dict string) : Prop :=
  forall q y, In q (nporder n) -> dget q pv = Some y -> In y (vals_of w q).

Lemma own_index_ok n x : In x (nvalues n) -> own_index n x = Ok [idx x (nvalues n)].
Proof.
  intros Ix. unfold own_index. destruct (nvalues n) as [|y l] eqn:E; [destruct Ix|]. rewrite <- E in *.
  rewrite (py_index_ok x _ Ix). reflexivity.
Qed.

Lemma own_shape w v i n x : inv w -> holds w v i n -> In x (nvalues n) ->
  shape (tarr (ncpd n)) = length (nvalues n) :: map (fun q => length (vals_of w q)) (nporder n).
Proof.
  intros I H Ix. destruct (iv_f w I v i n H) as [K S]. destruct (table_array w i n I (proj2 H) K) as [-> _].
  rewrite S. unfold right_shape. destruct (nvalues n) as [|y l] eqn:E; [destruct Ix|]. cbn. f_equal. apply map_ext, size_vals.
Qed.

Lemma entry_shown w v i n st : inv w -> holds w v i n -> entry (snapshot_node (whp w) n) st =
  aget (tarr (ncpd n)) (idx (look st (nname n)) (nvalues n) :: map (fun q => idx (look st q) (vals_of w q)) (nporder n)).
Proof.
  intros I H. unfold entry. cbn [map]. rewrite (shown_parents w v i n I H), map_map. reflexivity.
Qed.

Lemma legal_inb w v i n st : inv w -> holds w v i n -> legal w n st ->
  inb (shape (tarr (ncpd n))) (idx (look st (nname n)) (nvalues n) :: map (fun q => idx (look st q) (vals_of w q)) (nporder n)).
Proof.
  intros I H [L1 L2]. rewrite (own_shape w v i n _ I H L1). constructor; [apply idx_lt, L1|]. apply inb_map. intros q Iq. apply idx_lt, L2, Iq.
Qed.

Theorem set_probability_writes w v i n x p pv a : reached w -> holds w v i n -> ncpd n = TArr false a ->
  In x (nvalues n) -> known w n pv ->
  exists b, exec w (SetProb i x p pv) = (mkW (list_set i (with_cpd n (TArr false b) (nvalid n)) (whp w)) (wnet w), Ok tt) /\
    shape b = shape a /\ real_array b /\
    let w' := fst (exec w (SetProb i x p pv)) in
    (forall st, legal w n st ->
       entry (snapshot_node (whp w') (with_cpd n (TArr false b) (nvalid n))) st =
       if String.eqb (look st v) x && matches pv st (nporder n) then p else entry (snapshot_node (whp w) n) st) /\
    exists r, get_probability (whp w') (with_cpd n (TArr false b) (nvalid n)) x (ones pv) = Ok r /\
      real_array r /\ Forall (fun z => z = p) (data r) /\
      shape r = filter (fun d => negb (Nat.eqb d 1))
                  (map (fun q => match dget q pv with Some _ => 1 | None => length (vals_of w q) end) (nporder n)).
Proof.
  intros R H Ea Ix G. pose proof (reached_inv w R) as I. pose proof (iv_c w I) as C.
  pose proof (inv_discrete w I v i n H) as K.
  pose proof (own_shape w v i n x I H Ix) as SH. rewrite Ea in SH. cbn [tarr] in SH.
  assert (PV := fun q Iq => parent_values_vals w v i n q I H Iq).
  set (s := Fix (idx x (nvalues n)) :: map (selector (vals_of w) pv) (nporder n)).
  assert (SI : Forall2 sel_in s (shape a)).
  { rewrite SH. constructor; [apply idx_lt, Ix|]. apply (selectors_in n); [apply incl_refl|exact G]. }
  set (b := tabulate (shape a) (fun ix => if sel_match s ix then p else aget a ix)).
  assert (E : set_probability (whp w) n x p pv = Ok (with_cpd n (TArr false b) (nvalid n))).
  { unfold set_probability. rewrite K, (own_index_ok n x Ix). cbn [rbind]. rewrite (sels_ok (whp w) n (vals_of w) PV pv G). cbn [rbind].
    unfold put. rewrite Ea. cbn [cast]. cbn [map app]. fold s. unfold assign. rewrite (sel_ok_in s _ SI). reflexivity. }
  assert (EX : exec w (SetProb i x p pv) = (mkW (list_set i (with_cpd n (TArr false b) (nvalid n)) (whp w)) (wnet w), Ok tt)).
  { cbn [exec]. unfold on_node. rewrite (proj2 H), E. reflexivity. }
  exists b. split; [exact EX|]. split; [reflexivity|]. split; [apply wfa_tabulate|]. cbv zeta.
  assert (R' := reach_set_prob w i x p pv R). rewrite EX in *. cbn [fst] in *.
  set (n' := with_cpd n (TArr false b) (nvalid n)) in *.
  set (w' := mkW (list_set i n' (whp w)) (wnet w)) in *.
  pose proof (reached_inv w' R') as I'.
  assert (H' : holds w' v i n').
  { split; [apply H|]. cbn. rewrite nth_error_list_set, (proj2 H). destruct (Nat.eq_dec i i); [reflexivity|contradiction]. }
  assert (VV : forall q, vals_of w' q = vals_of w q).
  { intros q. unfold vals_of. cbn [wnet w']. destruct (dget q (lookup (wnet w))) as [j|]; [|reflexivity].
    cbn [whp w']. rewrite nth_error_list_set. destruct (Nat.eq_dec j i) as [->|_]; [|reflexivity]. rewrite (proj2 H). reflexivity. }
  split.
  - intros st L. rewrite (entry_shown w' v i n' st I' H'), (entry_shown w v i n st I H).
    cbn [n' ncpd with_cpd tarr nname nvalues nporder]. fold n'. rewrite Ea. cbn [tarr].
    assert (LB := legal_inb w v i n st I H L). rewrite Ea in LB. cbn [tarr] in LB.
    rewrite (map_ext (fun q => idx (look st q) (vals_of w' q)) (fun q => idx (look st q) (vals_of w q))) by (intros q; rewrite VV; reflexivity).
    unfold b. rewrite aget_tabulate by exact LB. unfold s. cbn [sel_match].
    rewrite (selectors_match n (vals_of w) pv st (nporder n)); [|apply incl_refl|exact G|apply L].
    rewrite (named w C v i n H).
    replace (Nat.eqb (idx x (nvalues n)) (idx (look st v) (nvalues n))) with (String.eqb (look st v) x); [reflexivity|].
    destruct L as [L1 _]. rewrite (named w C v i n H) in L1.
    destruct (Nat.eqb_spec (idx x (nvalues n)) (idx (look st v) (nvalues n))) as [X|X].
    + apply String.eqb_eq. symmetry. exact (idx_inj x (look st v) (nvalues n) Ix L1 X).
    + apply eqb_neq_s. intros Y. apply X. rewrite Y. reflexivity.
  - assert (PV' : forall q, In q (nporder n') -> parent_values (whp w') n' q = Ok (vals_of w q)).
    { intros q Iq. rewrite (parent_values_vals w' v i n' q I' H' Iq), VV. reflexivity. }
    set (ls := [idx x (nvalues n)] :: map (index_list (vals_of w) pv) (nporder n)).
    assert (SL : Forall2 same_sel s ls) by (constructor; [reflexivity|apply same_lists]).
    exists (squeeze (take_ix b ls)). split.
    { unfold get_probability. change (nkind n') with (nkind n). rewrite K. change (own_index n' x) with (own_index n x).
      rewrite (own_index_ok n x Ix). cbn [rbind].
      rewrite (picks_ok (whp w') n' (vals_of w) PV' pv G). cbn [rbind map app].
      change (nporder n') with (nporder n). fold ls. change (tarr (ncpd n')) with b.
      rewrite (ix_ok_sel s ls SL (shape b) SI). reflexivity. }
    assert (LEN : map (@length nat) ls = 1 :: map (fun q => match dget q pv with Some _ => 1 | None => length (vals_of w q) end) (nporder n)).
    { unfold ls. cbn. f_equal. rewrite map_map. apply map_ext. intros q. unfold index_list. destruct (dget q pv); [reflexivity|apply seq_length]. }
    split; [|split].
    + apply real_squeeze, wfa_tabulate.
    + cbn [squeeze data take_ix tabulate]. apply Forall_forall. intros z Hz. apply in_map_iff in Hz. destruct Hz as (ix & <- & Hix).
      apply In_indices in Hix. destruct (nths_match s ls SL (shape a) ix SI Hix) as [M B].
      unfold b. rewrite aget_tabulate by exact B. rewrite M. reflexivity.
    + cbn [squeeze shape take_ix tabulate]. rewrite LEN. reflexivity.
Qed.

(** Unknown values. *)
Theorem set_probability_rejects w v i n x p pv : reached w -> holds w v i n -> nvalues n <> [] ->
  ~ In x (nvalues n) \/ (exists q y, In q (nporder n) /\ dget q pv = Some y /\ ~ In y (vals_of w q)) ->
  exec w (SetProb i x p pv) = (w, Err ValueError).
Proof.
  intros R H NE B. pose proof (reached_inv w R) as I. pose proof (inv_discrete w I v i n H) as K.
  assert (PV := fun q Iq => parent_values_vals w v i n q I H Iq).
  assert (E : set_probability (whp w) n x p pv = Err ValueError).
  { unfold set_probability. rewrite K. destruct (In_dec_s x (nvalues n)) as [Ix|NI].
    - destruct B as [B|(q & y & Iq & D & NI)]; [contradiction|]. rewrite (own_index_ok n x Ix). cbn [rbind].
      rewrite (sels_unknown (whp w) n (vals_of w) PV pv q y Iq D NI). reflexivity.
    - unfold own_index. destruct (nvalues n) eqn:EV; [contradiction|]. rewrite (py_index_err x _ NI). reflexivity. }
  cbn [exec]. unfold on_node. rewrite (proj2 H), E. destruct w; reflexivity.
Qed.

(** C07: the factor of a node. *)
Lemma all_given st l w : (forall q, In q l -> In q (dkeys st)) ->
  map (index_list (vals_of w) st) l = map (fun q => [idx (look st q) (vals_of w q)]) l.
Proof.
  intros A. apply map_ext_in. intros q Iq. unfold index_list, look. destruct (dget_key q st (A q Iq)) as (y & ->). reflexivity.
Qed.

Lemma indices_ones {A} (l : list A) : indices (map (fun _ => 1) l) = [map (fun _ => 0) l].
Proof. induction l as [|a l IH]; [reflexivity|]. cbn. rewrite IH. reflexivity. Qed.

Lemma nths_single {A} (f : A -> nat) l : nths (map (fun q => [f q]) l) (map (fun _ => 0) l) = map f l.
Proof. induction l as [|a l IH]; [reflexivity|]. cbn. rewrite IH. reflexivity. Qed.

Lemma filter_ones {A} (l : list A) : filter (fun d => negb (Nat.eqb d 1)) (map (fun _ => 1) l) = [].
Proof. induction l as [|a l IH]; [reflexivity|]. exact IH. Qed.

Lemma get_full w v i n st : inv w -> holds w v i n -> legal w n st -> (forall q, In q (nporder n) -> In q (dkeys st)) ->
  get_probability (whp w) n (look st v) (ones st) = Ok (scalar (entry (snapshot_node (whp w) n) st)).
Proof.
  intros I H L A. pose proof (iv_c w I) as C. pose proof (named w C v i n H) as NM.
  assert (PV := fun q Iq => parent_values_vals w v i n q I H Iq).
  assert (Ix := proj1 L). rewrite NM in Ix.
  assert (G : known w n st).
  { intros q y Iq D. assert (X := proj2 L q Iq). unfold look in X. rewrite D in X. exact X. }
  unfold get_probability. rewrite (inv_discrete w I v i n H), (own_index_ok n _ Ix). cbn [rbind].
  rewrite (picks_ok (whp w) n (vals_of w) PV st G). cbn [rbind map app]. rewrite (all_given st _ w A).
  set (ls := [idx (look st v) (nvalues n)] :: map (fun q => [idx (look st q) (vals_of w q)]) (nporder n)).
  assert (SL : Forall2 same_sel (Fix (idx (look st v) (nvalues n)) :: map (selector (vals_of w) st) (nporder n)) ls).
  { constructor; [reflexivity|]. rewrite <- (all_given st _ w A). apply same_lists. }
  rewrite (ix_ok_sel _ ls SL).
  - f_equal. unfold squeeze, take_ix, scalar. cbn [shape data tabulate].
    assert (LEN : map (@length nat) ls = map (fun _ => 1) (v :: nporder n)) by (unfold ls; cbn; rewrite map_map; reflexivity).
    rewrite LEN, indices_ones, filter_ones. f_equal. cbn [map]. f_equal.
    rewrite (entry_shown w v i n st I H), NM. f_equal. unfold ls. cbn [nths map]. f_equal. apply nths_single.
  - rewrite (own_shape w v i n _ I H Ix). constructor; [apply idx_lt, Ix|]. apply (selectors_in n); [apply incl_refl|exact G].
Qed.

Lemma dget_fold_parents (l : list (string * list string)) : forall d q, NoDup (map fst l) ->
  dget q (fold_left (fun d p => dset (fst p) (snd p) d) l d) =
  match dget q l with Some vs => Some vs | None => dget q d end.
Proof.
  induction l as [|(p & vs) l IH]; intros d q ND; [reflexivity|]. cbn [fold_left dget fst snd map] in *.
  apply NoDup_cons_iff in ND. destruct ND as [NI ND]. rewrite IH by exact ND. rewrite dget_dset.
  destruct (String.eqb q p) eqn:E; [|reflexivity].
  apply String.eqb_eq in E. subst q. assert (D : dget p l = None) by (apply dget_None; exact NI). rewrite D. reflexivity.
Qed.

Lemma dget_pairs (f : string -> list string) l q : In q l -> dget q (map (fun p => (p, f p)) l) = Some (f q).
Proof.
  induction l as [|p l IH]; intros H; [destruct H|]. cbn. destruct (String.eqb q p) eqn:E.
  - apply String.eqb_eq in E. subst; reflexivity.
  - apply IH. destruct H as [->|H]; [rewrite eqb_refl_s in E; discriminate|exact H].
Qed.

Theorem from_node_reports w v i n : reached w -> tidy w -> holds w v i n ->
  let f := from_node (snapshot_node (whp w) n) in
  vorder f = v :: nporder n /\
  forall st, legal w n st -> (forall q, In q (nporder n) -> In q (dkeys st)) ->
    get_probability (whp w) n (look st v) (ones st) = Ok (scalar (potential_at f st)).
Proof.
  intros R T H f. pose proof (reached_inv w R) as I. pose proof (iv_c w I) as C. pose proof (named w C v i n H) as NM.
  split.
  - unfold f. cbn [from_node vorder]. rewrite (shown_names w v i n I H). cbn [snapshot_node dn_name]. rewrite NM. reflexivity.
  - intros st L A. rewrite (get_full w v i n st I H L A). f_equal. f_equal.
    unfold potential_at, entry, f. cbn [from_node vorder pot fvals map]. rewrite (shown_parents w v i n I H), !map_map. cbn [fst snd].
    assert (ND : NoDup (map fst (map (fun q => (q, vals_of w q)) (nporder n)))).
    { rewrite map_map. cbn. rewrite map_id. eapply C, H. }
    assert (DG : forall q, In q (nporder n) -> q <> nname n).
    { intros q Iq ->. rewrite NM in Iq. apply (co_parents w C v i n v H) in Iq. exact (ti_loops w T v Iq). }
    cbn [snapshot_node dn_name dn_values dn_cpd]. f_equal. f_equal.
    + f_equal. rewrite dget_fold_parents by exact ND.
      assert (D : dget (nname n) (map (fun q => (q, vals_of w q)) (nporder n)) = None).
      { apply dget_None. unfold dkeys. rewrite map_map. cbn. rewrite map_id. intros X. exact (DG _ X eq_refl). }
      rewrite D. cbn. rewrite eqb_refl_s. reflexivity.
    + apply map_ext_in. intros q Iq. f_equal. rewrite dget_fold_parents by exact ND. rewrite (dget_pairs (vals_of w) _ q Iq). reflexivity.
Qed.
