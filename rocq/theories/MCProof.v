From Coq Require Import Field.
From Verif Require Import Base NDArray Factor Exact Spec OrderSpec TreeSpec BaseFacts NDArrayFacts FactorFacts SpecFacts Sampling MCSpec MCFacts.

Definition fam (n : dnode) : list string := dn_name n :: map fst (dn_parents n).
Definition fam_ok (b : bn) (n : dnode) (st : state) : Prop :=
  forall v, In v (fam n) -> exists x, dget v st = Some x /\ In x (values_of b v).

Lemma look_dget st v x : dget v st = Some x -> look st v = x.
Proof. unfold look. now intros ->. Qed.

Lemma look_dset st v x : look (dset v x st) v = x.
Proof. apply look_dget, dget_dset_eq. Qed.

Lemma look_dset_neq st v u x : u <> v -> look (dset v x st) u = look st u.
Proof. intros H. unfold look. now rewrite dget_dset_neq. Qed.

Section Net.
Variable b : bn.
Hypothesis WB : wf_bn b.

Lemma fam_names n v : In n (bnodes b) -> In v (fam n) -> In v (bnames b).
Proof.
  intros Hn [<-|H]; [now apply in_map|].
  apply in_map_iff in H as ([p vals] & <- & H). destruct (wn_pvals _ _ (wb_nodes _ WB _ Hn) _ _ H) as (m & M & <- & _).
  exact (in_map dn_name _ _ M).
Qed.

Lemma complete_fam n st : complete b st -> In n (bnodes b) -> fam_ok b n st.
Proof. intros C Hn v Hv. apply C. eapply fam_names; eauto. Qed.

Lemma sp_entry n st x : In n (bnodes b) -> fam_ok b n st -> look st (dn_name n) = x -> sp n x st = Ok (entry n st).
Proof.
  intros Hn F Hx. pose proof (wb_nodes _ WB _ Hn) as WN. unfold sp.
  destruct (F (dn_name n)) as (y & Y & IY); [now left|].
  assert (y = x) by (now rewrite <- Hx, (look_dget _ _ _ Y)). subst y.
  rewrite (values_of_node b WB n Hn) in IY.
  assert (E1 : match dn_values n with [] => Ok [] | _ :: _ => let* i := py_index x (dn_values n) in Ok [i] end
               = Ok [idx x (dn_values n)]).
  { rewrite (py_index_ok x (dn_values n)) by exact IY. destruct (dn_values n) eqn:V; [inversion IY|reflexivity]. }
  rewrite E1. cbn [rbind].
  assert (P : forall p, In p (dn_parents n) -> exists y, dget (fst p) st = Some y /\ In y (snd p)).
  { intros [p vals] Hp. cbn [fst snd]. destruct (F p) as (y & Y' & I').
    - right. apply in_map_iff. now exists (p, vals).
    - exists y. split; [exact Y'|]. destruct (wn_pvals _ _ WN _ _ Hp) as (m & M & <- & <-).
      now rewrite (values_of_node b WB m M) in I'. }
  rewrite (mapM_total _ (fun p => position (look st (fst p)) (snd p))).
  2:{ intros p Hp. destruct (P p Hp) as (z & Z & I). unfold dget_err. rewrite Z. cbn [rbind].
      rewrite (look_dget _ _ _ Z), position_idx. now apply py_index_ok. }
  cbn [rbind app]. unfold aget_err.
  assert (B : inb (shape (dn_cpd n)) (map (fun p => position (look st (fst p)) (snd p)) ((dn_name n, dn_values n) :: dn_parents n))).
  { rewrite (wn_shape _ _ WN). apply inb_map. intros p [<-|Hp]; cbn [fst snd]; rewrite position_idx; apply idx_lt.
    - now rewrite Hx.
    - destruct (P p Hp) as (z & Z & I). now rewrite (look_dget _ _ _ Z). }
  cbn [map fst snd] in B. rewrite Hx, position_idx in B. apply inbb_spec in B. rewrite B.
  unfold entry. cbn [map fst snd]. rewrite Hx. reflexivity.
Qed.

Lemma entry_nonneg n st : nonneg_bn b -> In n (bnodes b) -> (0 <= entry n st)%Qc.
Proof. intros NN Hn. unfold entry, aget. apply nth_Forall_nonneg, NN, Hn. Qed.

Lemma entry_ext n s s' : (forall v, In v (fam n) -> look s v = look s' v) -> entry n s = entry n s'.
Proof.
  intros H. unfold entry. f_equal. apply map_ext_in. intros p Hp. f_equal. apply H.
  unfold fam. destruct Hp as [<-|Hp]; [now left|]. right. apply in_map_iff. now exists p.
Qed.

Hypothesis WG : wf_graph b.
Hypothesis EM : edges_match b.
Hypothesis ONCE : NoDup (bedges b).

(** Children. *)
Definition childb (v : string) (m : dnode) : bool := mem v (map fst (dn_parents m)).
Definition kids (v : string) : list dnode := filter (childb v) (bnodes b).

Lemma node_unique n m : In n (bnodes b) -> In m (bnodes b) -> dn_name n = dn_name m -> n = m.
Proof.
  intros Hn Hm E. pose proof (get_node_ok b WB n Hn) as A. rewrite E, (get_node_ok b WB m Hm) in A. now inversion A.
Qed.

Lemma nodes_NoDup : NoDup (bnodes b).
Proof. eapply NoDup_map_inv. exact (wb_names _ WB). Qed.

Lemma children_ok v : In v (bnames b) -> exists cs, get_children b v = Ok cs /\ Permutation cs (kids v).
Proof.
  intros Hv. unfold get_children.
  assert (M : mem v (border b) = true) by (apply mem_In; eapply Permutation_in; [apply (wg_nodes _ WG)|exact Hv]).
  rewrite M.
  set (es := filter (fun e => String.eqb v (fst e)) (bedges b)).
  assert (T : forall e, In e es -> exists m, In m (bnodes b) /\ dn_name m = snd e /\ In v (map fst (dn_parents m))).
  { intros [u w] He. apply filter_In in He as [He E]. cbn [fst] in E. apply String.eqb_eq in E. subst u.
    destruct (proj1 (EM _ _) He) as (m & A & B & C). exists m. auto. }
  assert (X : exists cs, mapM (get_node b) (map snd es) = Ok cs /\ Forall2 (fun e m => In m (bnodes b) /\ dn_name m = snd e /\ In v (map fst (dn_parents m))) es cs).
  { clearbody es. induction es as [|e es IH]; [exists []; now split|].
    destruct IH as (cs & E & F). { intros; apply T; now right. }
    destruct (T e (or_introl eq_refl)) as (m & A & B & C). exists (m :: cs). cbn [map mapM].
    rewrite <- B, (get_node_ok b WB m A). cbn [rbind]. rewrite E. cbn [rbind]. split; [reflexivity|]. constructor; auto. }
  destruct X as (cs & E & F). exists cs. split; [exact E|].
  assert (NDe : NoDup (map snd es)).
  { assert (N1 : NoDup es) by (apply NoDup_filter, ONCE). assert (A : forall e, In e es -> fst e = v).
    { intros e He. apply filter_In in He as [_ H]. symmetry. now apply String.eqb_eq. }
    clear - N1 A. induction N1 as [|[u w] es Hx N1 IH]; cbn [map]; constructor.
    - intros H. apply in_map_iff in H as ([u' w'] & H1 & H2). cbn [snd] in *. subst w'.
      pose proof (A _ (or_introl eq_refl)). pose proof (A _ (or_intror H2)). cbn [fst] in *. subst. contradiction.
    - apply IH. intros; apply A; now right. }
  assert (NMs : map dn_name cs = map snd es).
  { clear - F. induction F as [|e m es cs (A & B & C) F IH]; [reflexivity|]. cbn [map]. now rewrite B, IH. }
  apply NoDup_Permutation.
  - eapply NoDup_map_inv. rewrite NMs. exact NDe.
  - apply NoDup_filter, nodes_NoDup.
  - intros m. split.
    + intros Hm. unfold kids. rewrite filter_In.
      apply (In_nth _ _ m) in Hm as (i & Hi & <-).
      assert (FF : forall i, i < length cs -> exists e, In e es /\ In (nth i cs m) (bnodes b) /\ In v (map fst (dn_parents (nth i cs m)))).
      { clear - F. induction F as [|e m' es cs (A & B & C) F IH]; intros i Hi; [inversion Hi|].
        destruct i; [exists e; split; [now left|split; auto]|]. destruct (IH i) as (e' & X & Y); [cbn in Hi; lia|].
        exists e'. split; [now right|exact Y]. }
      destruct (FF i Hi) as (e & _ & A & B). split; [exact A|]. now apply mem_In.
    + unfold kids. rewrite filter_In. intros [Hm C]. apply mem_In in C.
      assert (He : In (v, dn_name m) es).
      { apply filter_In. cbn [fst]. split; [|apply String.eqb_refl]. apply EM. now exists m. }
      apply (in_map snd) in He. cbn [snd] in He. rewrite <- NMs in He. apply in_map_iff in He as (m' & E' & H').
      assert (In m' (bnodes b)).
      { clear - F H'. induction F as [|e x es cs (A & B & C) F IH]; [inversion H'|]. destruct H' as [<-|H']; auto. }
      rewrite <- (node_unique m' m); auto.
Qed.

(** The Markov blanket's share of the joint probability. *)
Definition blanket (n : dnode) (st : state) : Qc :=
  (entry n st * qprod (map (fun m => entry m st) (kids (dn_name n))))%Qc.

Definition others_of (v : string) : list dnode :=
  filter (fun m => negb (String.eqb v (dn_name m)) && negb (childb v m)) (bnodes b).
Definition outside (v : string) (st : state) : Qc := qprod (map (fun m => entry m st) (others_of v)).

Lemma no_self n : In n (bnodes b) -> childb (dn_name n) n = false.
Proof.
  intros Hn. apply mem_nIn. intros H. pose proof (wn_parents _ _ (wb_nodes _ WB _ Hn)) as N. now inversion N.
Qed.

Lemma qprod_split {A} (f : A -> Qc) (P : A -> bool) l :
  qprod (map f l) = (qprod (map f (filter P l)) * qprod (map f (filter (fun x => negb (P x)) l)))%Qc.
Proof.
  induction l as [|x l IH]; cbn [filter map qprod]; [ring|]. destruct (P x); cbn [negb map qprod]; rewrite IH; ring.
Qed.

Lemma filter_filter {A} (P Q : A -> bool) l : filter P (filter Q l) = filter (fun x => Q x && P x) l.
Proof. induction l as [|x l IH]; [reflexivity|]. cbn [filter]. destruct (Q x); cbn [filter andb]; [destruct (P x)|]; now rewrite IH. Qed.

Lemma filter_name n : In n (bnodes b) -> filter (fun m => String.eqb (dn_name n) (dn_name m)) (bnodes b) = [n].
Proof.
  intros Hn. pose proof (wb_names _ WB) as ND. unfold bnames in ND. induction (bnodes b) as [|m l IH]; [inversion Hn|].
  cbn [map] in ND. inversion ND as [|? ? A B]. subst. cbn [filter]. destruct Hn as [->|Hn].
  - rewrite String.eqb_refl. f_equal. clear - A. induction l as [|y l IH]; [reflexivity|]. cbn [filter].
    destruct (String.eqb_spec (dn_name n) (dn_name y)) as [E|E]; [exfalso; apply A; left; auto|].
    apply IH. intros H; apply A; now right.
  - destruct (String.eqb_spec (dn_name n) (dn_name m)) as [E|E].
    + exfalso. apply A. rewrite <- E. now apply in_map.
    + now apply IH.
Qed.

Lemma joint_split n st : In n (bnodes b) -> joint b st = (blanket n st * outside (dn_name n) st)%Qc.
Proof.
  intros Hn. unfold joint, blanket, outside, kids, others_of.
  rewrite (qprod_split _ (fun m => String.eqb (dn_name n) (dn_name m))), (filter_name n Hn).
  rewrite (qprod_split _ (childb (dn_name n)) (filter _ _)), !filter_filter.
  assert (E : filter (fun m => negb (String.eqb (dn_name n) (dn_name m)) && childb (dn_name n) m) (bnodes b) = filter (childb (dn_name n)) (bnodes b)).
  { apply filter_ext_in. intros m Hm. destruct (String.eqb_spec (dn_name n) (dn_name m)) as [X|X]; [|reflexivity].
    cbn [negb andb]. rewrite <- (node_unique n m Hn Hm X). symmetry. now apply no_self. }
  rewrite E. cbn [map qprod]. ring.
Qed.

Lemma outside_same v x st : outside v (dset v x st) = outside v st.
Proof.
  unfold outside, others_of. f_equal. apply map_ext_in. intros m Hm. apply filter_In in Hm as [Hm H].
  apply andb_prop in H as [H1 H2]. apply negb_true_iff in H1, H2. apply entry_ext. intros u Hu.
  apply look_dset_neq. intros ->. destruct Hu as [Hu|Hu].
  - rewrite Hu, String.eqb_refl in H1. discriminate.
  - apply mem_nIn in H2. contradiction.
Qed.

Lemma outside_nonneg v st : nonneg_bn b -> (0 <= outside v st)%Qc.
Proof.
  intros NN. apply qprod_nonneg, Forall_forall. intros q Hq. apply in_map_iff in Hq as (m & <- & Hm).
  apply filter_In in Hm as [Hm _]. now apply entry_nonneg.
Qed.

Lemma blanket_nonneg n st : nonneg_bn b -> In n (bnodes b) -> (0 <= blanket n st)%Qc.
Proof.
  intros NN Hn. apply Qcmult_nonneg; [now apply entry_nonneg|].
  apply qprod_nonneg, Forall_forall. intros q Hq. apply in_map_iff in Hq as (m & <- & Hm).
  apply filter_In in Hm as [Hm _]. now apply entry_nonneg.
Qed.

Lemma markov_blanket n st cs x : In n (bnodes b) -> complete b st -> look st (dn_name n) = x ->
  Permutation cs (kids (dn_name n)) -> get_markov_prob n x cs st false = Ok (blanket n st).
Proof.
  intros Hn C Hx P. unfold get_markov_prob. rewrite (sp_entry n st x) by (auto using complete_fam). cbn [rbind].
  unfold blanket. rewrite <- (qprod_perm _ _ (Permutation_map (fun m => entry m st) P)).
  assert (K : forall m, In m cs -> In m (bnodes b)).
  { intros m Hm. eapply Permutation_in in Hm; [|exact P]. now apply filter_In in Hm. }
  generalize (entry n st) as p. clear P. induction cs as [|m cs IH]; intros p; cbn [foldM map qprod].
  - f_equal. ring.
  - destruct (C (dn_name m)) as (y & Y & IY); [apply in_map, K; now left|].
    unfold dget_err. rewrite Y. cbn [rbind].
    rewrite (sp_entry m st y); [|apply K; now left|apply complete_fam; [exact C|apply K; now left]|now apply look_dget].
    cbn [rbind]. rewrite IH by (intros; apply K; now right). f_equal. ring.
Qed.

Lemma complete_dset v x st : complete b st -> In x (values_of b v) -> complete b (dset v x st).
Proof.
  intros C X u Hu. rewrite dget_dset. destruct (String.eqb_spec u v) as [->|E]; [now exists x|now apply C].
Qed.
End Net.
