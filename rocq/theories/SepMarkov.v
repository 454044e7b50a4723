(** A variable given its parents, whatever else is known about variables that are
    not below it. *)
From Verif Require Import Base BaseFacts NDArray NDArrayFacts SumCalc Factor FactorFacts Exact Spec SpecFacts MCSpec HuginPure DecNorm SepSpec SepRelevant SepTrail SepBall.
From Coq Require Import Field.

Section Markov.
Variable b : bn.
Hypothesis WB : wf_bn b.
Variable order : list string.
Hypothesis TO : topological b order.

Lemma parent_before p v : parent b p v -> forall pre post, order = pre ++ v :: post -> In p pre.
Proof. intros (n & Hn & E & H) pre post EO. exact (proj2 TO pre v post n EO Hn E p H). Qed.

Lemma above_earlier u w : above b u w -> forall l pre post, order = pre ++ w :: post -> l = pre ++ [w] -> In w (bnames b) -> In u l.
Proof.
  induction 1 as [w|u c w P A IH]; intros l pre post E -> Hw; [apply in_or_app; right; left; reflexivity|].
  specialize (IH _ pre post E eq_refl Hw). apply in_app_or in IH as [IH|[<-|[]]].
  - apply in_split in IH as (l1 & l2 & ->). rewrite <- !app_assoc in E. cbn [app] in E.
    assert (X := parent_before u c P l1 _ E). apply in_or_app. left. apply in_or_app. left. exact X.
  - apply in_or_app. left. exact (parent_before u w P pre post E).
Qed.

Lemma no_cycle u c : parent b u c -> above b c u -> False.
Proof.
  intros P A. destruct (parent_name b WB u c P) as [Hu _].
  assert (Ho : In u order) by (eapply Permutation_in; [apply TO|exact Hu]). apply in_split in Ho as (pre & post & E).
  assert (ND := order_NoDup b WB order TO).
  assert (X := above_earlier c u A _ pre post E eq_refl Hu). apply in_app_or in X as [X|[<-|[]]].
  - apply in_split in X as (l1 & l2 & ->). rewrite <- app_assoc in E. cbn [app] in E. assert (Y := parent_before u c P l1 _ E).
    rewrite E in ND. rewrite app_comm_cons, app_assoc in ND. apply NoDup_remove_2 in ND. apply ND. apply in_or_app. left. apply in_or_app. left. exact Y.
  - assert (Y := parent_before u u P pre post E). rewrite E in ND. apply NoDup_remove_2 in ND. apply ND, in_or_app. left; exact Y.
Qed.

Variable ST : stochastic_bn b.
Variable n : dnode.
Hypothesis Hn : In n (bnodes b).
Variable ev : evidence.
Hypothesis EV : ev_ok b ev.
Hypothesis UN : forall d, above b (dn_name n) d -> ~ In d (dkeys ev).
Variable s : dict string.
Hypothesis PA : forall p, In p (map fst (dn_parents n)) -> dget p ev = Some (Hard (look s p)).
Notation X := (dn_name n).
Notation dom := (values_of b).
Notation card := (card dom).

Definition row (i : nat) : Qc := entry n ((X, nth i (dn_values n) "") :: s).

Theorem markov_mass : exists M, forall x, In x (dn_values n) -> mass b ev [(X, x)] = (entry n ((X, x) :: s) * M)%Qc /\ mass b ev [] = M.
Proof.
  destruct (relevant b WB ev [] [X]) as (S & AN & IS & G).
  assert (SO : stochastic_outside b S) by (intros m t Hm _; apply ST, Hm).
  assert (WS : within_set b ev S) by (intros v Hv _; apply IS, in_or_app; right; apply in_or_app; left; exact Hv).
  assert (SX : In X S) by (apply IS; left; reflexivity).
  assert (Hr : In n (bnodes (restrict b S))) by (apply r_node; auto).
  assert (LEAF : forall m, In m (bnodes (restrict b S)) -> ~ In X (map fst (dn_parents m))).
  { intros m Hm Hp. apply r_node in Hm as [Hm Sm]. assert (P : parent b X (dn_name m)) by (exists m; auto).
    destruct (G _ Sm) as (d & A & D). destruct D as [<-|D]; [exact (no_cycle _ _ P A)|]. cbn in D. rewrite app_nil_r in D.
    apply (UN d); [econstructor; eassumption|exact D]. }
  set (r := restrict b S) in *. assert (WR : wf_bn r) by (apply r_wf; assumption).
  assert (EVR : ev_ok r ev) by (apply r_ev; assumption).
  assert (INST : forall x, In x (dn_values n) -> is_inst b [X] [(X, x)]).
  { intros x Hx. split; [repeat constructor; intros []|]. split; [cbn; tauto|]. intros v y [E|[]]. injection E as <- <-.
    rewrite (values_of_node b WB n Hn). exact Hx. }
  assert (IX : incl [X] (bnames r)) by (intros v [<-|[]]; apply in_map, Hr).
  assert (ND1 : NoDup [X]) by (repeat constructor; intros []).
  destruct (in_split _ _ Hr) as (l1 & l2 & EL).
  set (others_w := fun a => qprod (map (fun m => feval (from_node m) a * ievw ev m a)%Qc (l1 ++ l2))).
  assert (NDN := wb_names r WR). unfold bnames in NDN. rewrite EL, map_app in NDN. cbn [map] in NDN.
  assert (NX : ~ In X (map dn_name (l1 ++ l2))) by (rewrite map_app; apply NoDup_remove_2 in NDN; exact NDN).
  assert (INL : forall m, In m (l1 ++ l2) -> In m (bnodes r)) by (intros m Hm; rewrite EL; apply in_app_or in Hm; apply in_or_app; cbn; tauto).
  assert (DW : deps (others r [X]) others_w).
  { apply (qprod_map_deps _ (fun m a => feval (from_node m) a * ievw ev m a)%Qc). intros m Hm. assert (Hm' := INL m Hm).
    assert (Nm : dn_name m <> X) by (intros E; apply NX; rewrite <- E; apply in_map, Hm).
    apply deps_mult.
    - eapply deps_incl; [|apply feval_deps]. intros v Hv. apply others_In. split; [exact (from_node_scope r WR m v Hm' Hv)|].
      intros [<-|[]]. destruct Hv as [Hv|Hv]; [congruence|]. exact (LEAF m Hm' Hv).
    - eapply deps_incl; [|apply ievw_deps]. intros v [<-|[]]. apply others_In. split; [apply in_map, Hm'|]. intros [E|[]]. congruence. }
  assert (EN : dget X ev = None) by (apply dget_None, UN; constructor).
  assert (SPLIT : forall a, iweight r ev a = (feval (from_node n) a * others_w a)%Qc).
  { intros a. unfold iweight, others_w. rewrite EL, !map_app, !qprod_app. cbn [map qprod]. unfold ievw at 2. rewrite EN. ring. }
  assert (ROW : forall a, a X < length (dn_values n) -> (feval (from_node n) a * others_w a = row (a X) * others_w a)%Qc).
  { intros a Ha. destruct (Qc_eq_dec (others_w a) 0%Qc) as [Z|Z]; [rewrite Z; ring|]. f_equal.
    unfold row, entry, feval. cbn [pot from_node vorder]. f_equal. cbn [map fst snd]. f_equal.
    - unfold look. cbn [dget]. rewrite String.eqb_refl, position_idx. symmetry. apply idx_nth; [apply (wb_nodes b WB n Hn)|exact Ha].
    - rewrite map_map. apply map_ext_in. intros (p & l) Hp. cbn [fst snd].
      assert (Hpn : In p (map fst (dn_parents n))) by (exact (in_map fst _ _ Hp)).
      assert (NpX : p <> X). { intros ->. exact (LEAF n Hr Hpn). }
      assert (E1 : look ((X, nth (a X) (dn_values n) "") :: s) p = look s p) by (unfold look; cbn [dget]; rewrite (eqb_neq_s _ _ NpX); reflexivity).
      rewrite E1, position_idx. destruct (parent_dom r WR n p l Hr Hp) as [Dl Ip]. apply (in_bnames r) in Ip as (m & Hm & Em).
      assert (Hm' : In m (l1 ++ l2)).
      { rewrite EL in Hm. apply in_app_or in Hm as [Hm|[Hm|Hm]]; [apply in_or_app; auto|subst m; congruence|apply in_or_app; auto]. }
      assert (NZ : ievw ev m a <> 0%Qc).
      { intros E. apply Z. unfold others_w. apply in_split in Hm' as (k1 & k2 & ->). rewrite map_app, qprod_app. cbn [map qprod]. rewrite E. ring. }
      unfold ievw in NZ. rewrite Em, (PA p Hpn) in NZ. rewrite <- Em, (values_of_node r WR m Hm) in Dl. rewrite Dl in NZ.
      destruct (Nat.eqb_spec (a p) (idx (look s p) l)) as [E|E]; [exact E|congruence]. }
  set (M := sum_over card (others r [X]) others_w (fun _ => 0)).
  assert (CR : forall v, In v (bnames r) -> FactorFacts.card (values_of r) v = card v).
  { intros v Hv. unfold FactorFacts.card. unfold r. rewrite (r_dom b WB S AN v Hv). reflexivity. }
  assert (ONE : forall a, a X < length (dn_values n) -> sum_over card (others r [X]) (iweight r ev) a = (row (a X) * M)%Qc).
  { intros a Ha. transitivity (sum_over card (others r [X]) (fun c => row (c X) * others_w c)%Qc a).
    - apply sum_over_ext_in. intros c Rc Ec. rewrite SPLIT. apply ROW. rewrite (Ec X); [exact Ha|]. intros Y. apply others_In in Y as [_ Y]. apply Y; left; reflexivity.
    - rewrite (sum_over_mult_l card _ [X] (fun c => row (c X))).
      + f_equal. apply (sum_over_deps card _ _ _ DW). intros v A B. contradiction.
      + intros x y E. rewrite (E X) by (left; reflexivity). reflexivity.
      + intros v [<-|[]] Y. apply others_In in Y as [_ Y]. apply Y; left; reflexivity. }
  assert (TOT : mass b ev [] = M).
  { rewrite (mass_restrict b WB S AN order TO SO ev [] [] EV WS (is_inst_nil b)); [|constructor|intros v []]. fold r.
    rewrite (mass_total r WR ev (fun _ => 0) EVR).
    rewrite (sum_over_perm _ _ ([X] ++ others r [X]) _ (iweight_ext r WR ev)) by (apply others_split; assumption).
    rewrite (SepRelevant.sum_over_card _ card).
    2: { intros v Hv. apply CR. apply in_app_or in Hv as [[<-|[]]|Hv]; [apply IX; left; reflexivity|apply others_In in Hv; tauto]. }
    cbn [app sum_over]. transitivity (bigsum (card X) (fun i => row i * M)%Qc).
    - apply bigsum_ext. intros i Hi. rewrite ONE; rewrite upd_eq; [reflexivity|]. unfold FactorFacts.card in Hi. rewrite (values_of_node b WB n Hn) in Hi. exact Hi.
    - transitivity (bigsum (card X) row * M)%Qc.
      + rewrite Qcmult_comm, <- bigsum_mult_l. apply bigsum_ext. intros. ring.
      + assert (E : bigsum (card X) row = 1%Qc).
        { rewrite <- (ST n s Hn), (qsum_list_nth (dn_values n) ""). unfold FactorFacts.card. rewrite (values_of_node b WB n Hn). reflexivity. }
        rewrite E. ring. }
  exists M. intros x Hx. split; [|exact TOT].
  rewrite (mass_restrict b WB S AN order TO SO ev _ [X] EV WS (INST x Hx) ND1 IX). fold r.
  rewrite (mass_sum r WR ev _ [X] EVR) by (try assumption; apply (r_inst b WB S AN _ _ IX), INST, Hx).
  rewrite (SepRelevant.sum_over_card _ card) by (intros v Hv; apply CR; apply others_In in Hv; tauto).
  assert (AX : asg_q r [(X, x)] X = idx x (dn_values n)).
  { unfold asg_q, look. cbn [dget]. rewrite String.eqb_refl, (values_of_node r WR n Hr). reflexivity. }
  rewrite ONE; rewrite AX; [|apply idx_lt, Hx]. unfold row. rewrite nth_idx by exact Hx. reflexivity.
Qed.

Theorem markov x : In x (dn_values n) -> mass b ev [] <> 0%Qc -> posterior b ev [(X, x)] = entry n ((X, x) :: s).
Proof.
  intros Hx NZ. destruct markov_mass as (M & H). destruct (H x Hx) as [E1 E2]. unfold posterior. apply qeqb_false in NZ as Z. rewrite Z.
  rewrite E1, E2 in *. field. exact NZ.
Qed.
End Markov.
