(** C68: the range of floating-point numbers. *)
From Verif Require Import Base BaseFacts NDArray Factor Exact Order OrderSpec Spec SpecFacts Rounded RoundedSpec RoundedProof RoundedTop RoundedDouble
  Ranged RangedSpec RangedProof RangedDouble FactorProofs Checks ExampleNets Instances PropRounded.

(** The program is that of Rounded.v with another rounding. *)
Theorem C68_same_program {RD : Rounding} {AD : Adding} {SO : SetOrder} b Q ev o :
  naive_by (mul_with rnd) (marg_with rnd) (normalize_with rnd) b Q ev = rounded_naive b Q ev /\
  bucket_by (mul_with rnd) (marg_with rnd) (normalize_with rnd) b Q ev o = rounded_bucket b Q ev o.
Proof. split; reflexivity. Qed.

(** If the range of the numbers is large enough for the tables, results are those without
    limits, hence as accurate as C64 says. *)
Theorem C68_naive {RD : Rounding} {LM : Limits} {AD : Adding} {SO : SetOrder} P b Q ev :
  wf_bn b -> nonneg_bn b -> ev_ok b ev -> tame P b ev -> NoDup Q -> incl Q (bnames b) -> (naive_need P b Q ev <= top)%Qc ->
  limited_naive b Q ev = rounded_naive b Q ev /\
  exists r, limited_naive b Q ev = Ok r /\ reports b r Q (potential_at r) /\
    forall q, is_inst b Q q -> close (naive_errors b Q ev) (posterior b ev q) (potential_at r q).
Proof.
  intros WB NN EV TM ND I H. assert (E := naive_limited P b WB NN ev EV TM Q ND I H). split; [exact E|]. rewrite E. exact (naive_top b WB NN Q ev EV ND I).
Qed.

Theorem C68_bucket {RD : Rounding} {LM : Limits} {AD : Adding} {SO : SetOrder} P b Q ev o :
  wf_bn b -> nonneg_bn b -> ev_ok b ev -> tame P b ev -> incl (dkeys ev) (bnames b) -> NoDup Q -> incl Q (bnames b) ->
  (o = None \/ o = Some [] -> wf_graph b) -> (forall l, o = Some l -> l <> [] -> Permutation (bnames b) l) -> (bucket_need P b Q ev <= top)%Qc ->
  limited_bucket b Q ev o = rounded_bucket b Q ev o /\
  exists r, limited_bucket b Q ev o = Ok r /\ reports b r Q (potential_at r) /\
    forall q, is_inst b Q q -> close (bucket_errors b Q ev) (posterior b ev q) (potential_at r q).
Proof.
  intros WB NN EV TM K ND I G PO H. assert (E := bucket_limited P b WB NN ev EV TM Q o K ND I G PO H). split; [exact E|]. rewrite E. exact (bucket_top b WB NN Q ev o EV K ND I G PO).
Qed.

(** Nothing possible is reported as impossible then. *)
Theorem C68_zeros {RD : Rounding} {LM : Limits} {AD : Adding} {SO : SetOrder} P b Q ev :
  wf_bn b -> nonneg_bn b -> ev_ok b ev -> tame P b ev -> NoDup Q -> incl Q (bnames b) -> (naive_need P b Q ev <= top)%Qc ->
  exists r, limited_naive b Q ev = Ok r /\ forall q, is_inst b Q q -> (potential_at r q = 0%Qc <-> posterior b ev q = 0%Qc).
Proof.
  intros WB NN EV TM ND I H. rewrite (naive_limited P b WB NN ev EV TM Q ND I H). exact (C64_zeros b Q ev WB NN EV ND I).
Qed.

(** Without the condition, doubles: two observations of probability 2^-600 make every answer
    0, by either algorithm. *)
Definition p2 (n : positive) : Qc := Q2Qc (1 # (2 ^ n)%positive).
Definition rare (v : string) (x : Qc) : dnode := mkN v ["t"; "f"] [] [] (mkArr [2] [x; 1%Qc]).
Definition faint : bn := mkBN [rare "A" (p2 600); rare "B" (p2 600); mkN "X" ["t"; "f"] [] [] (mkArr [2] [qq 1 2; qq 1 2])] ["A"; "B"; "X"] [].
Definition both_t : evidence := [("A", Hard "t"); ("B", Hard "t")].
Theorem C68_underflow_refuted : exists b Q ev r1 r2, wf_bn b /\ wf_graph b /\ nonneg_bn b /\ ev_ok b ev /\ incl (dkeys ev) (bnames b) /\ NoDup Q /\ incl Q (bnames b) /\ (0 < mass b ev [])%Qc /\
  (forall q, In q [[("X", "t")]; [("X", "f")]] -> is_inst b Q q /\ posterior b ev q = qq 1 2) /\
  @limited_naive double ieee pairwise listing_order b Q ev = Ok r1 /\ data (pot r1) = [0%Qc; 0%Qc] /\
  @limited_bucket double ieee pairwise listing_order b Q ev None = Ok r2 /\ data (pot r2) = [0%Qc; 0%Qc].
Proof.
  exists faint, ["X"], both_t. do 2 eexists. split; [apply wf_bnb_ok; vm_compute; reflexivity|]. split; [apply wf_graphb_ok; vm_compute; reflexivity|]. split; [apply nonnegb_ok; vm_compute; reflexivity|].
  split; [apply ev_okb_ok; vm_compute; reflexivity|]. split; [apply inclb_ok; reflexivity|]. split; [apply nodup_s_spec; reflexivity|]. split; [apply inclb_ok; reflexivity|].
  split; [vm_compute; reflexivity|]. split.
  { intros q [<-|[<-|[]]]; (split; [split; [apply nodup_s_spec; reflexivity|split; [cbn; tauto|intros v x [E|[]]; inversion E; cbn; tauto]]|apply Qc_is_canon; vm_compute; reflexivity]). }
  split; [vm_compute; reflexivity|]. split; [qlist|]. split; [vm_compute; reflexivity|]. qlist.
Qed.

(** Doubles: answers that look like probabilities and are wrong; 1 and 0 where the
    posterior is 3/4 and 1/4. *)
Definition coarse : bn := mkBN [rare "A" (p2 537); rare "B" (p2 537); mkN "X" ["t"; "f"] [] [] (mkArr [2] [qq 3 4; qq 1 4])] ["A"; "B"; "X"] [].
Theorem C68_certain_refuted : exists b Q ev r, wf_bn b /\ nonneg_bn b /\ ev_ok b ev /\ NoDup Q /\ incl Q (bnames b) /\
  posterior b ev [("X", "t")] = qq 3 4 /\ posterior b ev [("X", "f")] = qq 1 4 /\
  @limited_naive double ieee pairwise listing_order b Q ev = Ok r /\ potential_at r [("X", "t")] = 1%Qc /\ potential_at r [("X", "f")] = 0%Qc.
Proof.
  exists coarse, ["X"], both_t. eexists. split; [apply wf_bnb_ok; vm_compute; reflexivity|]. split; [apply nonnegb_ok; vm_compute; reflexivity|].
  split; [apply ev_okb_ok; vm_compute; reflexivity|]. split; [apply nodup_s_spec; reflexivity|]. split; [apply inclb_ok; reflexivity|].
  split; [apply Qc_is_canon; vm_compute; reflexivity|]. split; [apply Qc_is_canon; vm_compute; reflexivity|]. split; [vm_compute; reflexivity|]. split; apply Qc_is_canon; vm_compute; reflexivity.
Qed.

(** Not vacuous: [net] with soft and hard evidence in doubles; the tables lie between 1/10
    and 10, which needs a range of about 2^50. *)
Definition amidb (P x : Qc) : bool := qeqb x 0 || (qleb 1 (x * P) && qleb x P)%Qc.
Lemma amidb_ok P x : amidb P x = true -> amid P x.
Proof. unfold amidb, amid. intros H. apply orb_true_iff in H as [H|H]; [left; apply qeqb_true, H|right]. apply andb_true_iff in H as [A B]. split; apply qleb_true; assumption. Qed.
Lemma amids_ok P l : forallb (amidb P) l = true -> Forall (amid P) l.
Proof. intros H. apply Forall_forall. intros x Hx. apply amidb_ok. rewrite forallb_forall in H. apply H, Hx. Qed.
Example C68_example : wf_bn net /\ wf_graph net /\ nonneg_bn net /\ ev_ok net ev_net /\ tame (qq 10 1) net ev_net /\ incl (dkeys ev_net) (bnames net) /\
  NoDup ["C"; "A"] /\ incl ["C"; "A"] (bnames net) /\
  (@naive_need double (qq 10 1) net ["C"; "A"] ev_net <= @top double ieee)%Qc /\ (@bucket_need double (qq 10 1) net ["C"; "A"] ev_net <= @top double ieee)%Qc /\
  (@naive_need double (qq 10 1) net ["C"; "A"] ev_net <= Q2Qc (inject_Z (2 ^ 50)))%Qc /\
  exists r, @limited_naive double ieee pairwise listing_order net ["C"; "A"] ev_net = Ok r /\ (0 < potential_at r [("A", "f"); ("C", "f")])%Qc.
Proof.
  split; [apply wf_bnb_ok; vm_compute; reflexivity|]. split; [apply wf_graphb_ok; vm_compute; reflexivity|]. split; [apply nonnegb_ok; vm_compute; reflexivity|].
  split; [apply ev_okb_ok; vm_compute; reflexivity|]. split.
  { split; [discriminate|]. split.
    - intros n Hn. apply amids_ok. assert (H : forallb (fun n => forallb (amidb (qq 10 1)) (data (dn_cpd n))) (bnodes net) = true) by (vm_compute; reflexivity). rewrite forallb_forall in H. apply H, Hn.
    - intros v q [E|[E|[]]]; inversion E; subst. apply amids_ok. vm_compute. reflexivity. }
  split; [apply inclb_ok; reflexivity|]. split; [apply nodup_s_spec; reflexivity|]. split; [apply inclb_ok; reflexivity|].
  split; [apply qleb_true; vm_compute; reflexivity|]. split; [apply qleb_true; vm_compute; reflexivity|]. split; [apply qleb_true; vm_compute; reflexivity|].
  eexists. split; [vm_compute; reflexivity|vm_compute; reflexivity].
Qed.

Print Assumptions C68_same_program.
Print Assumptions C68_naive.
Print Assumptions C68_bucket.
Print Assumptions C68_zeros.
Print Assumptions C68_underflow_refuted.
Print Assumptions C68_certain_refuted.
Print Assumptions ieee.
