(** C63, C64: rounded arithmetic. *)
From Verif Require Import Base BaseFacts NDArray Factor Exact Order OrderSpec Spec SpecFacts Sampling MCSpec MCProof Rounded RoundedSpec RoundedProof RoundedTables RoundedTop RoundedDouble FactorProofs Checks ExampleNets Instances.

(** ** C63: the roulette wheel *)
(** Whatever the rounding, [sample_value] returns one of the node's values for every
    random number, and one that the exact weights allow unless the number is 0. *)
Theorem C63_draw_total {RD : Rounding} g k n st cs fwd : rng_ok g -> dn_values n <> [] ->
  (forall m, m = n \/ In m cs -> Forall (fun q => 0 <= q)%Qc (data (dn_cpd m))) ->
  (forall y, In y (dn_values n) -> exists p, get_markov_prob n y cs (dset (dn_name n) y st) fwd = Ok p) ->
  exists x p, rsample_value g k n st cs fwd = Ok (Some x) /\ In x (dn_values n) /\
    get_markov_prob n x cs (dset (dn_name n) x st) fwd = Ok p /\
    ((0 < unif g k)%Qc -> (exists y p, In y (dn_values n) /\ get_markov_prob n y cs (dset (dn_name n) y st) fwd = Ok p /\ (0 < p)%Qc) -> (0 < p)%Qc).
Proof. exact (rsample_hits g k n st cs fwd). Qed.

(** The weights behind the draw are accurate. *)
Theorem C63_weights {RD : Rounding} n x cs st fwd p : (forall m, m = n \/ In m cs -> Forall (fun q => 0 <= q)%Qc (data (dn_cpd m))) ->
  get_markov_prob n x cs st fwd = Ok p -> exists p', rmarkov n x cs st fwd = Ok p' /\ close (length cs) p p'.
Proof. exact (rmarkov_close n x cs st fwd p). Qed.

(** Weights too small to change the running sum are never drawn, although they are
    positive: doubles, a weight of 2^-60 after a weight of 1. *)
Theorem C63_small_weights_refuted : exists values ws x, length values = length ws /\ Forall (fun w => 0 <= w)%Qc ws /\
  (exists i, nth_error values i = Some x /\ (0 < nth i ws 0)%Qc) /\ NoDup values /\
  forall u, (0 <= u)%Qc -> (u < 1)%Qc -> @rdraw double values ws u <> Some x.
Proof.
  exists ["a"; "b"]%string, [1%Qc; Q2Qc (1 # (2 ^ 60))], "b"%string. split; [reflexivity|]. split; [repeat constructor; discriminate|].
  split; [exists 1; split; [reflexivity|reflexivity]|]. split; [apply nodup_s_spec; reflexivity|].
  intros u U0 U1. unfold rdraw. assert (T : @rtotal double [1%Qc; Q2Qc (1 # (2 ^ 60))] = 1%Qc) by (apply Qc_is_canon; vm_compute; reflexivity). rewrite T.
  cbn [rroulette]. assert (S1 : @rnd double (0 + 1)%Qc = 1%Qc) by (apply Qc_is_canon; vm_compute; reflexivity). rewrite S1.
  assert (L : (@rnd double (u * 1) <= 1)%Qc). { rewrite <- S1 at 2. apply (@rnd_mono double); rewrite Qcmult_1_r; [exact U0|apply Qclt_le_weak; exact U1]. }
  apply qleb_true in L. rewrite L. discriminate.
Qed.

(** Not vacuous: node A of [net], its children B and C, a state, doubles; the weights of
    A are positive, and the draw for 1/3 returns the second value. *)
Definition some_rng : rng := mkRng (fun _ => qfrac 1 3) (fun _ => 0).
Definition some_state : dict string := [("A", "t"); ("B", "y"); ("C", "t"); ("D", "f")].
Example C63_example : rng_ok some_rng /\ get_children net "A" = Ok [nB; nC] /\ dn_values nA <> [] /\
  (forall m, m = nA \/ In m [nB; nC] -> Forall (fun q => 0 <= q)%Qc (data (dn_cpd m))) /\
  (forall y, In y (dn_values nA) -> exists p, get_markov_prob nA y [nB; nC] (dset "A" y some_state) false = Ok p /\ (0 < p)%Qc) /\
  @rsample_value double some_rng 0 nA some_state [nB; nC] false = Ok (Some "f").
Proof.
  split; [intros k; split; [discriminate|reflexivity]|]. split; [reflexivity|]. split; [discriminate|]. split.
  - intros m Hm. assert (I : In m (bnodes net)) by (destruct Hm as [->|[<-|[<-|[]]]]; cbn; tauto). exact (nonnegb_ok net eq_refl m I).
  - split; [|vm_compute; reflexivity]. intros y [<-|[<-|[]]]; eexists; (split; [vm_compute; reflexivity|reflexivity]).
Qed.

(** ** C64: variable elimination *)
(** The algorithms below are those of Exact.v and Order.v with other arithmetic. *)
Theorem C64_same_program {SO : SetOrder} b Q ev o :
  naive_by fmul marginalize1 normalize b Q ev = naive_marginals b Q ev /\
  ((forall o', order_or_default b o = Ok o' -> length Q <= length o') -> bucket_by fmul marginalize1 normalize b Q ev o = bucket_query b Q ev o).
Proof. split; [apply naive_by_exact|apply bucket_by_exact]. Qed.

(** In any arithmetic with relative error [ulp] per operation, adding in any order, the
    answers are within a factor of (1 + ulp)^K of the posterior. *)
Theorem C64_naive {RD : Rounding} {AD : Adding} {SO : SetOrder} b Q ev :
  wf_bn b -> nonneg_bn b -> ev_ok b ev -> NoDup Q -> incl Q (bnames b) ->
  exists r, rounded_naive b Q ev = Ok r /\ reports b r Q (potential_at r) /\
    forall q, is_inst b Q q -> close (naive_errors b Q ev) (posterior b ev q) (potential_at r q).
Proof. intros WB NN. exact (naive_top b WB NN Q ev). Qed.

Theorem C64_bucket {RD : Rounding} {AD : Adding} {SO : SetOrder} b Q ev o :
  wf_bn b -> nonneg_bn b -> ev_ok b ev -> incl (dkeys ev) (bnames b) -> NoDup Q -> incl Q (bnames b) ->
  (o = None \/ o = Some [] -> wf_graph b) -> (forall l, o = Some l -> l <> [] -> Permutation (bnames b) l) ->
  exists r, rounded_bucket b Q ev o = Ok r /\ reports b r Q (potential_at r) /\
    forall q, is_inst b Q q -> close (bucket_errors b Q ev) (posterior b ev q) (potential_at r q).
Proof. intros WB NN. exact (bucket_top b WB NN Q ev o). Qed.

(** Zeros are exact: what the network rules out is reported as 0 and nothing else is. *)
Theorem C64_zeros {RD : Rounding} {AD : Adding} {SO : SetOrder} b Q ev :
  wf_bn b -> nonneg_bn b -> ev_ok b ev -> NoDup Q -> incl Q (bnames b) ->
  exists r, rounded_naive b Q ev = Ok r /\ forall q, is_inst b Q q -> (potential_at r q = 0%Qc <-> posterior b ev q = 0%Qc).
Proof.
  intros WB NN EV ND I. destruct (naive_top b WB NN Q ev EV ND I) as (r & E & _ & C). exists r. split; [exact E|]. intros q Hq. specialize (C q Hq).
  assert (P := close_pos _ _ _ C). destruct C as (C1 & C2 & _). split; intros Z; rewrite Z in P.
  - destruct (Qc_dec (posterior b ev q) 0) as [[D|D]|D]; [|apply P in D; destruct (Qc_lt_irrefl _ D)|exact D]. destruct (Qclt_not_le _ _ D C1).
  - destruct (Qc_dec (potential_at r q) 0) as [[D|D]|D]; [|apply P in D; destruct (Qc_lt_irrefl _ D)|exact D]. destruct (Qclt_not_le _ _ D C2).
Qed.

(** The absolute error: at most 2 K ulp, K the number of rounding errors, as long as K is
    at most 1 / (2 ulp). *)
Theorem C64_absolute {RD : Rounding} {AD : Adding} {SO : SetOrder} b Q ev :
  wf_bn b -> nonneg_bn b -> ev_ok b ev -> NoDup Q -> incl Q (bnames b) ->
  (qnat (naive_errors b Q ev) * ulp <= 1 / (1 + 1))%Qc ->
  exists r, rounded_naive b Q ev = Ok r /\ forall q, is_inst b Q q ->
    (potential_at r q - posterior b ev q <= (1 + 1) * (qnat (naive_errors b Q ev) * ulp))%Qc /\
    (posterior b ev q - potential_at r q <= (1 + 1) * (qnat (naive_errors b Q ev) * ulp))%Qc.
Proof.
  intros WB NN EV ND I S. destruct (naive_top b WB NN Q ev EV ND I) as (r & E & _ & C). exists r. split; [exact E|]. intros q Hq.
  destruct (close_abs _ _ _ (C q Hq) (posterior_le_1 b WB NN ev q EV)) as [A B]. assert (L := power_linear _ S).
  assert (M : (power (1 + ulp) (naive_errors b Q ev) - 1 <= (1 + 1) * (qnat (naive_errors b Q ev) * ulp))%Qc).
  { replace ((1 + 1) * (qnat (naive_errors b Q ev) * ulp))%Qc with (1 + (1 + 1) * (qnat (naive_errors b Q ev) * ulp) - 1)%Qc by ring. apply Qcplus_le_compat; [exact L|apply Qcle_refl]. }
  split; eapply Qcle_trans; eassumption.
Qed.

Theorem C64_bucket_absolute {RD : Rounding} {AD : Adding} {SO : SetOrder} b Q ev o :
  wf_bn b -> nonneg_bn b -> ev_ok b ev -> incl (dkeys ev) (bnames b) -> NoDup Q -> incl Q (bnames b) ->
  (o = None \/ o = Some [] -> wf_graph b) -> (forall l, o = Some l -> l <> [] -> Permutation (bnames b) l) ->
  (qnat (bucket_errors b Q ev) * ulp <= 1 / (1 + 1))%Qc ->
  exists r, rounded_bucket b Q ev o = Ok r /\ forall q, is_inst b Q q ->
    (potential_at r q - posterior b ev q <= (1 + 1) * (qnat (bucket_errors b Q ev) * ulp))%Qc /\
    (posterior b ev q - potential_at r q <= (1 + 1) * (qnat (bucket_errors b Q ev) * ulp))%Qc.
Proof.
  intros WB NN EV K ND I G P S. destruct (bucket_top b WB NN Q ev o EV K ND I G P) as (r & E & _ & C). exists r. split; [exact E|]. intros q Hq.
  destruct (close_abs _ _ _ (C q Hq) (posterior_le_1 b WB NN ev q EV)) as [A B]. assert (L := power_linear _ S).
  assert (M : (power (1 + ulp) (bucket_errors b Q ev) - 1 <= (1 + 1) * (qnat (bucket_errors b Q ev) * ulp))%Qc).
  { replace ((1 + 1) * (qnat (bucket_errors b Q ev) * ulp))%Qc with (1 + (1 + 1) * (qnat (bucket_errors b Q ev) * ulp) - 1)%Qc by ring. apply Qcplus_le_compat; [exact L|apply Qcle_refl]. }
  split; eapply Qcle_trans; eassumption.
Qed.

(** The two algorithms agree up to their errors, whatever the elimination order. *)
Theorem C64_agree {RD : Rounding} {AD : Adding} {SO : SetOrder} b Q ev o :
  wf_bn b -> nonneg_bn b -> ev_ok b ev -> incl (dkeys ev) (bnames b) -> NoDup Q -> incl Q (bnames b) ->
  (o = None \/ o = Some [] -> wf_graph b) -> (forall l, o = Some l -> l <> [] -> Permutation (bnames b) l) ->
  exists r1 r2, rounded_naive b Q ev = Ok r1 /\ rounded_bucket b Q ev o = Ok r2 /\
    forall q, is_inst b Q q -> close (naive_errors b Q ev + bucket_errors b Q ev) (potential_at r1 q) (potential_at r2 q).
Proof.
  intros WB NN EV K ND I G P. destruct (naive_top b WB NN Q ev EV ND I) as (r1 & E1 & _ & C1). destruct (bucket_top b WB NN Q ev o EV K ND I G P) as (r2 & E2 & _ & C2).
  exists r1, r2. split; [exact E1|]. split; [exact E2|]. intros q Hq. eapply close_trans; [apply close_sym, C1, Hq|apply C2, Hq].
Qed.

(** Tables that were rounded when they were read: answers against the intended numbers. *)
Theorem C64_tables {RD : Rounding} {AD : Adding} {SO : SetOrder} k b b' Q ev :
  wf_bn b -> close_bn k b b' -> ev_ok b ev -> NoDup Q -> incl Q (bnames b) ->
  exists r, rounded_naive b' Q ev = Ok r /\
    forall q, is_inst b Q q -> close (2 * (k * length (bnodes b)) + naive_errors b' Q ev) (posterior b ev q) (potential_at r q).
Proof.
  intros WB CB EV ND I. assert (I' : incl Q (bnames b')) by (rewrite (proj2 (close_vars k b b' CB)); exact I).
  destruct (naive_top b' (close_wf k b b' CB WB) (close_nonneg k b b' CB) Q ev (close_ev k b b' CB ev EV) ND I') as (r & E & _ & C).
  exists r. split; [exact E|]. intros q Hq. eapply close_trans; [apply (close_posterior k b b' CB ev EV)|]. apply C.
  destruct Hq as (Q1 & Q2 & Q3). split; [exact Q1|]. split; [exact Q2|]. intros v x Hx. rewrite (close_values k b b' CB). apply Q3, Hx.
Qed.

(** Doubles: answers need not sum to 1 (nor equal the posterior) exactly. *)
Definition sixths : bn := mkBN [mkN "X" ["a"; "b"; "c"; "d"; "e"; "g"] [] [] (mkArr [6] [qq 1 4; qq 1 4; qq 1 8; qq 1 8; qq 1 8; qq 1 8])] ["X"] [].
Definition ev_sixths : evidence := [("X", Soft [qq 1 2; qq 1 2; qq 1 1; qq 1 1; qq 1 1; qq 1 1])].
Theorem C64_sum_one_refuted : exists b Q ev r, wf_bn b /\ nonneg_bn b /\ ev_ok b ev /\ NoDup Q /\ incl Q (bnames b) /\
  @rounded_naive double pairwise listing_order b Q ev = Ok r /\ mass b ev [] <> 0%Qc /\ qsum (data (pot r)) <> 1%Qc.
Proof.
  exists sixths, ["X"], ev_sixths. eexists. split; [apply wf_bnb_ok; vm_compute; reflexivity|]. split; [apply nonnegb_ok; vm_compute; reflexivity|].
  split; [apply ev_okb_ok; vm_compute; reflexivity|]. split; [apply nodup_s_spec; reflexivity|]. split; [apply inclb_ok; reflexivity|]. split; [vm_compute; reflexivity|].
  split; intros H; apply (f_equal this) in H; vm_compute in H; discriminate.
Qed.

(** Doubles: the two algorithms need not give the same answer exactly. *)
Definition ev_net : evidence := [("D", Hard "t"); ("B", Soft [qq 1 2; qq 1 1; 0%Qc])].
Theorem C64_same_answer_refuted : exists b Q ev r1 r2 q, wf_bn b /\ nonneg_bn b /\ ev_ok b ev /\ NoDup Q /\ incl Q (bnames b) /\ is_inst b Q q /\
  @rounded_naive double pairwise listing_order b Q ev = Ok r1 /\ @rounded_bucket double pairwise listing_order b Q ev None = Ok r2 /\ potential_at r1 q <> potential_at r2 q.
Proof.
  exists net, ["C"; "A"], ev_net. do 2 eexists. exists [("A", "f"); ("C", "f")]. split; [apply wf_bnb_ok; vm_compute; reflexivity|]. split; [apply nonnegb_ok; vm_compute; reflexivity|].
  split; [apply ev_okb_ok; vm_compute; reflexivity|]. split; [apply nodup_s_spec; reflexivity|]. split; [apply inclb_ok; reflexivity|]. split.
  - split; [apply nodup_s_spec; reflexivity|]. split; [cbn; tauto|]. intros v x [E|[E|[]]]; inversion E; cbn; tauto.
  - split; [vm_compute; reflexivity|]. split; [vm_compute; reflexivity|]. intros H. apply (f_equal this) in H. vm_compute in H. discriminate.
Qed.

(** The order in which numbers are added can change a result. *)
Definition tiny : Qc := qfrac 1 9007199254740992.
Definition table3 : factor := mkF (mkArr [3] [1%Qc; tiny; tiny]) ["X"] [("X", ["a"; "b"; "c"])].
Theorem C64_order_of_adding_refuted : exists f v r1 r2,
  @rmarg double one_by_one f v = Ok r1 /\ @rmarg double pairwise f v = Ok r2 /\ potential_at r1 [] <> potential_at r2 [].
Proof.
  exists table3, "X". do 2 eexists. split; [vm_compute; reflexivity|]. split; [vm_compute; reflexivity|]. intros H. apply (f_equal this) in H. vm_compute in H. discriminate.
Qed.

(** Not vacuous: [net] with soft and hard evidence, in doubles. *)
Example C64_example :
  wf_bn net /\ wf_graph net /\ nonneg_bn net /\ ev_ok net ev_net /\ incl (dkeys ev_net) (bnames net) /\ NoDup ["C"; "A"] /\ incl ["C"; "A"] (bnames net) /\
  naive_errors net ["C"; "A"] ev_net = 27 /\ bucket_errors net ["C"; "A"] ev_net = 35 /\
  (qnat (naive_errors net ["C"; "A"] ev_net) * @ulp double <= 1 / (1 + 1))%Qc /\ (qnat (bucket_errors net ["C"; "A"] ev_net) * @ulp double <= 1 / (1 + 1))%Qc /\
  (0 < @ulp double)%Qc /\ (0 < posterior net ev_net [("A", "f"); ("C", "f")])%Qc /\
  exists r, @rounded_bucket double one_by_one reversed_order net ["C"; "A"] ev_net (Some ["C"; "A"; "D"; "B"]) = Ok r /\ (0 < potential_at r [("A", "f"); ("C", "f")])%Qc.
Proof.
  split; [apply wf_bnb_ok; vm_compute; reflexivity|]. split; [apply wf_graphb_ok; vm_compute; reflexivity|]. split; [apply nonnegb_ok; vm_compute; reflexivity|].
  split; [apply ev_okb_ok; vm_compute; reflexivity|]. split; [apply inclb_ok; reflexivity|]. split; [apply nodup_s_spec; reflexivity|]. split; [apply inclb_ok; reflexivity|].
  split; [reflexivity|]. split; [reflexivity|]. split; [apply qleb_true; vm_compute; reflexivity|]. split; [apply qleb_true; vm_compute; reflexivity|].
  split; [reflexivity|]. split; [vm_compute; reflexivity|]. eexists. split; [vm_compute; reflexivity|vm_compute; reflexivity].
Qed.

(** Not vacuous: the tables of [net] rounded to doubles (1/5 and 1/10 are no doubles). *)
Definition double_node (n : dnode) : dnode := mkN (dn_name n) (dn_values n) (dn_parents n) (dn_pdict n) (amap (@rnd double) (dn_cpd n)).
Definition net_read : bn := mkBN (map double_node (bnodes net)) (border net) (bedges net).
Example C64_tables_example : @close_bn double 1 net net_read /\ dn_cpd (double_node nA) <> dn_cpd nA.
Proof.
  split.
  - split; [|split; reflexivity]. assert (N : nonneg_bn net) by (apply nonnegb_ok; vm_compute; reflexivity). unfold net_read. cbn [bnodes].
    assert (G : forall l, incl l (bnodes net) -> Forall2 (@close_node double 1) l (map double_node l)).
    { induction l as [|n l IH]; intros I; cbn [map]; constructor.
      - do 4 (split; [reflexivity|]). split; [reflexivity|]. cbn [double_node dn_cpd amap data]. assert (F := N n (I n (or_introl eq_refl))). induction F; cbn [map]; constructor; [apply (@close_rnd double); assumption|assumption].
      - apply IH. intros m Hm. apply I. right. exact Hm. }
    apply G, incl_refl.
  - intros H. apply (f_equal (fun a => this (nth 0 (data a) 0%Qc))) in H. vm_compute in H. discriminate.
Qed.

Print Assumptions C63_draw_total.
Print Assumptions C63_weights.
Print Assumptions C63_small_weights_refuted.
Print Assumptions C64_same_program.
Print Assumptions C64_naive.
Print Assumptions C64_bucket.
Print Assumptions C64_zeros.
Print Assumptions C64_absolute.
Print Assumptions C64_bucket_absolute.
Print Assumptions C64_agree.
Print Assumptions C64_tables.
Print Assumptions C64_sum_one_refuted.
Print Assumptions C64_same_answer_refuted.
Print Assumptions C64_order_of_adding_refuted.
Print Assumptions double.
