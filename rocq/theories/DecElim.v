(** Elimination of variables from joint factors: when it raises. *)
From Verif Require Import Base BaseFacts NDArray NDArrayFacts SumCalc Factor FactorFacts FactorProofs SpecFacts Decision DecVE.
From Coq Require Import Field.

Lemma filter_permutation {A} (P : A -> bool) l l' : Permutation l l' -> Permutation (filter P l) (filter P l').
Proof.
  induction 1 as [|x l l' _ IH|x y l|l l' l'' _ IH1 _ IH2]; cbn.
  - constructor.
  - destruct (P x); [constructor|]; exact IH.
  - destruct (P x), (P y); try apply Permutation_refl. apply perm_swap.
  - exact (Permutation_trans IH1 IH2).
Qed.

Lemma filter_none {A} (P : A -> bool) l : filter P l = [] -> filter (fun x => negb (P x)) l = l.
Proof.
  induction l as [|x l IH]; cbn; [reflexivity|]. destruct (P x); cbn; [discriminate|]. intros E. rewrite (IH E). reflexivity.
Qed.

Lemma bigsum_const n c : bigsum n (fun _ => c) = (qnat n * c)%Qc.
Proof.
  unfold bigsum. induction n as [|n IH]; [cbn; symmetry; apply Qcmult_0_l|].
  rewrite seq_S, map_app, qsum_app, IH, qnat_S. cbn [map qsum Nat.add]. ring.
Qed.

Section Elim.
Variable dom : string -> list string.
Variable vars : list string.
Context {SO : SetOrder} {BO : BagOrder}.
Notation card := (card dom).
Notation wf_jf := (wf_jf dom vars).

Lemma marginalize_joint_zero f v a0 : wf_jf f -> In v (vorder (fst f)) -> (forall u, In u (vorder (fst f)) -> u = v) ->
  inrange card vars a0 -> bigsum (card v) (fun i => feval (fst f) (upd a0 v i)) = 0%Qc ->
  marginalize_joint f v = Err FloatingPointError.
Proof.
  intros F Iv Only R0 Z. unfold marginalize_joint.
  destruct (marginalize1_spec dom (fst f) v (wj_p _ _ _ F) Iv) as (p & Ep & Wp & Op & Vp). rewrite Ep. cbn [rbind].
  destruct (fcombine_spec dom Qcmult (fst f) (snd f) (wj_p _ _ _ F) (wj_u _ _ _ F)) as (pu & Epu & Wpu & _ & Opu & _).
  unfold fmul. rewrite Epu. cbn [rbind].
  assert (Ipu : forall u, In u (vorder pu) <-> In u (vorder (fst f))).
  { intros u. rewrite Opu, (wj_scope _ _ _ F). tauto. }
  destruct (marginalize1_spec dom pu v Wpu (proj2 (Ipu v) Iv)) as (m & Em & Wm & Om & Vm). rewrite Em. cbn [rbind].
  assert (EP : vorder p = []).
  { destruct (vorder p) as [|u l] eqn:E; [reflexivity|]. exfalso. assert (X : In u (remove1 v (vorder (fst f)))) by (rewrite <- Op; left; reflexivity).
    apply remove1_In in X; [|apply (wj_p _ _ _ F)]. destruct X as [X N]. apply N, Only, X. }
  assert (EK : dkeys (fvals p) = []).
  { destruct (dkeys (fvals p)) as [|u l] eqn:E; [reflexivity|]. exfalso. assert (X : In u (vorder p)) by (apply (wf_keys _ _ Wp); rewrite E; left; reflexivity).
    rewrite EP in X. destruct X. }
  assert (VZ : feval p (fun _ => 0) = 0%Qc).
  { rewrite <- Z. rewrite <- Vp by (rewrite EP; intros ? []). apply feval_deps. rewrite EP. intros ? []. }
  assert (S0 : shape (pot p) = []) by (rewrite (wf_shape _ _ Wp), EP; reflexivity).
  assert (P0 := wfa_rank0 _ (wf_arr _ _ Wp) S0).
  unfold fdiv, finvert. rewrite EK. cbn [subset forallb]. rewrite EP.
  assert (V0 : aget (pot p) [] = 0%Qc) by (unfold feval in VZ; rewrite EP in VZ; exact VZ).
  rewrite P0, V0. cbn. reflexivity.
Qed.

(** A set of factors that shares no variable with the others, whose variables are
    all eliminated, and whose product sums to zero. *)
Definition dead (l : list jfactor) (vs : list string) (a : asg) : Prop :=
  exists C R, Permutation l (C ++ R) /\ (forall f, In f C -> incl (vorder (fst f)) vs) /\
    (forall f g u, In f C -> In g R -> In u (vorder (fst f)) -> ~ In u (vorder (fst g))) /\
    sum_over card vs (PP C) a = 0%Qc.

Lemma zero_factor_eq c x : c <> 0%Qc -> (c * x)%Qc = 0%Qc -> x = 0%Qc.
Proof. intros N E. apply Qcmult_integral in E as [E|E]; [contradiction|exact E]. Qed.

Lemma PP_free v l b i : (forall f, In f l -> ~ In v (vorder (fst f))) -> PP l (upd b v i) = PP l b.
Proof. intros N. unfold PP. apply qprod_map_ext. intros f Hf. apply feval_deps. intros u Hu. apply upd_neq. intros ->. apply (N f Hf Hu). Qed.

Lemma wf_sub l l' : Forall wf_jf l -> incl l' l -> Forall wf_jf l'.
Proof. rewrite !Forall_forall. intros W S f Hf. apply W, S, Hf. Qed.

Theorem eliminate_outcome a0 : inrange card vars a0 -> forall vs, NoDup vs -> incl vs vars -> (forall v, In v vs -> 0 < card v) ->
  forall k l, Forall wf_jf l -> (forall v, In v vs -> covered l v) ->
  (forall f, In f l -> vorder (fst f) = [] -> feval (fst f) a0 <> 0%Qc) ->
  (eliminate k l vs = Err FloatingPointError /\ dead l vs a0) \/
  (exists l', eliminate k l vs = Ok l' /\ ~ dead l vs a0 /\ Forall wf_jf l' /\ (l <> [] -> l' <> []) /\
     forall v, covered l' v <-> covered l v /\ ~ In v vs).
Proof.
  intros R0. induction 1 as [|v vs Nv ND IH]; intros IV CP k l W C TR.
  - right. exists l. split; [reflexivity|]. split; [|split; [exact W|split; [tauto|intros v; cbn; tauto]]].
    intros (S1 & R & P & Sc & _ & Z). cbn [sum_over] in Z. revert Z. unfold PP.
    assert (G : forall f, In f S1 -> feval (fst f) a0 <> 0%Qc).
    { intros f Hf. apply TR; [apply (Permutation_in f (Permutation_sym P)), in_or_app; left; exact Hf|].
      assert (X := Sc f Hf). destruct (vorder (fst f)) as [|u t]; [reflexivity|]. destruct (X u (or_introl eq_refl)). }
    clear - G. induction S1 as [|f S1 IH]; cbn; [discriminate|]. intros Z. apply Qcmult_integral in Z as [Z|Z].
    + exact (G f (or_introl eq_refl) Z).
    + revert Z. apply IH. intros g Hg. apply G. right; exact Hg.
  - cbn [eliminate]. set (rel := filter (fun f => mem v (vorder (fst f))) l).
    set (oth := filter (fun f => negb (mem v (vorder (fst f)))) l).
    assert (PL : Permutation l (oth ++ rel)) by apply filter_split.
    assert (WR : Forall wf_jf rel) by (apply Forall_filter, W).
    assert (WO : Forall wf_jf oth) by (apply Forall_filter, W).
    destruct (C v (or_introl eq_refl)) as (f0 & I0 & S0).
    assert (NR : rel <> []).
    { intros Z. assert (X : In f0 rel) by (apply mem_filter_spec; auto). rewrite Z in X. destruct X. }
    assert (NO : forall f, In f oth -> ~ In v (vorder (fst f))).
    { intros f Hf Hv. apply filter_In in Hf as [_ Hf]. apply negb_true_iff in Hf. apply mem_nIn in Hf. contradiction. }
    assert (RV : forall f, In f rel -> In v (vorder (fst f))) by (intros f Hf; apply mem_filter_spec in Hf; tauto).
    destruct (combine_spec dom vars k rel WR NR) as (t & Et & Wt & Ot & Vt). fold rel. rewrite Et. cbn [rbind].
    assert (It : In v (vorder (fst t))). { apply Ot. exists f0. split; [apply mem_filter_spec; auto|exact S0]. }
    assert (Iv : In v vars) by (apply IV; left; reflexivity).
    assert (RR : forall b, inrange card vs b -> (forall u, ~ In u vs -> b u = a0 u) -> inrange card vars b).
    { intros b Rb Eb u Hu. destruct (In_dec_s u vs) as [X|X]; [apply Rb, X|rewrite (Eb u X); apply R0, Hu]. }
    assert (XP : forall l', Forall wf_jf l' -> ext (PP l')) by (intros l' W'; eapply deps_ext, PP_deps, W').
    assert (CV0 : qnat (card v) <> 0%Qc).
    { intros Z. assert (X := qnat_pos (card v) (CP v (or_introl eq_refl))). rewrite Z in X. discriminate. }
    assert (OD : (forall u, In u (vorder (fst t)) -> u = v) \/ exists u, In u (vorder (fst t)) /\ u <> v).
    { clear. induction (vorder (fst t)) as [|u s IH]; [left; intros u []|]. destruct (string_dec u v) as [->|N].
      - destruct IH as [IH|(x & Hx & Nx)]; [left; intros x [<-|Hx]; auto|right; exists x; split; [right; exact Hx|exact Nx]].
      - right. exists u. split; [left; reflexivity|exact N]. }
    assert (FAIL : (forall u, In u (vorder (fst t)) -> u = v) /\ bigsum (card v) (fun i => feval (fst t) (upd a0 v i)) = 0%Qc \/
      ~ ((forall u, In u (vorder (fst t)) -> u = v) /\ bigsum (card v) (fun i => feval (fst t) (upd a0 v i)) = 0%Qc)).
    { destruct OD as [O|(u & Hu & Nu)]; [|right; intros [O _]; apply Nu, O, Hu].
      destruct (Qc_eq_dec (bigsum (card v) (fun i => feval (fst t) (upd a0 v i))) 0%Qc); [left; auto|right; tauto]. }
    destruct FAIL as [[Only Z]|NF].
    + left. rewrite (marginalize_joint_zero t v a0 Wt It Only R0 Z). split; [reflexivity|].
      exists rel, oth. split; [eapply Permutation_trans; [exact PL|apply Permutation_app_comm]|]. split; [|split].
      * intros f Hf u Hu. left. symmetry. apply Only, Ot. exists f. auto.
      * intros f g u Hf Hg Hu Hu'. assert (u = v) by (apply Only, Ot; exists f; auto). subst u. apply (NO g Hg Hu').
      * rewrite sum_last by (apply XP, WR). apply sum_over_zero. intros b Rb Eb. assert (Rb' := RR b Rb Eb).
        rewrite <- Z. apply bigsum_ext. intros i Hi. rewrite <- (proj1 (Vt _ (range_upd dom vars v i b Rb' Hi))).
        apply feval_deps. intros u Hu. rewrite (Only u Hu), !upd_eq. reflexivity.
    + destruct (marginalize_joint_spec dom vars t v Wt It) as (h & Eh & Wh & Oh & Vh).
      { intros Only a Ra Z. apply NF. split; [exact Only|]. rewrite <- Z. apply bigsum_ext. intros i _. apply feval_deps.
        intros u Hu. rewrite (Only u Hu), !upd_eq. reflexivity. }
      { exists a0. exact R0. }
      rewrite Eh. cbn [rbind].
      assert (Wl : Forall wf_jf (oth ++ [h])) by (apply Forall_app; split; [exact WO|constructor; [exact Wh|constructor]]).
      assert (HR : forall b, inrange card vars b -> feval (fst h) b = bigsum (card v) (fun i => PP rel (upd b v i))).
      { intros b Rb. rewrite (proj1 (Vh b Rb)). apply bigsum_ext. intros i Hi. apply Vt, range_upd; assumption. }
      assert (CV : forall u, covered (oth ++ [h]) u <-> covered l u /\ u <> v).
      { intros u. split.
        - intros (f & Hf & Hu). apply in_app_or in Hf as [Hf|[<-|[]]].
          + split; [exists f; split; [|exact Hu]; apply filter_In in Hf; tauto|]. intros ->. apply (NO f Hf Hu).
          + apply Oh in Hu as [Hu N]. split; [|exact N]. apply Ot in Hu as (g & Hg & Hu).
            exists g. apply mem_filter_spec in Hg. tauto.
        - intros ((f & Hf & Hu) & N). destruct (mem v (vorder (fst f))) eqn:M.
          + exists h. split; [apply in_or_app; right; left; reflexivity|]. apply Oh. split; [|exact N].
            apply Ot. exists f. split; [apply filter_In; auto|exact Hu].
          + exists f. split; [|exact Hu]. apply in_or_app; left. apply filter_In. rewrite M. auto. }
      (* with [v] summed out of the relevant factors *)
      assert (SUMR : forall A B, Forall wf_jf A -> Forall wf_jf B -> Permutation B rel -> (forall f, In f A -> ~ In v (vorder (fst f))) ->
        sum_over card (v :: vs) (PP (A ++ B)) a0 = sum_over card vs (PP (A ++ [h])) a0).
      { intros A B WA WB PB NA. rewrite sum_last by (apply XP, Forall_app; auto). apply sum_over_ext_in. intros b Rb Eb.
        assert (Rb' := RR b Rb Eb). rewrite PP_app. unfold PP at 3. cbn [map qprod]. rewrite (HR b Rb'), Qcmult_1_r, <- bigsum_mult_l.
        apply bigsum_ext. intros i Hi. rewrite PP_app, (PP_free v A b i NA), (PP_perm B rel _ PB). reflexivity. }
      (* without [v] *)
      assert (SUMO : forall A, Forall wf_jf A -> (forall f, In f A -> ~ In v (vorder (fst f))) ->
        sum_over card (v :: vs) (PP A) a0 = (qnat (card v) * sum_over card vs (PP A) a0)%Qc).
      { intros A WA NA. rewrite sum_last by (apply XP, WA). rewrite <- sum_over_const_l. apply sum_over_ext. intros b.
        rewrite <- bigsum_const. apply bigsum_ext. intros i _. apply PP_free, NA. }
      assert (EQ : dead l (v :: vs) a0 <-> dead (oth ++ [h]) vs a0).
      { split.
        - intros (S1 & R & P & Sc & Sep & Z).
          set (P1 := fun f : jfactor => mem v (vorder (fst f))).
          assert (PR : Permutation rel (filter P1 S1 ++ filter P1 R)) by (rewrite <- filter_app; apply filter_permutation, P).
          assert (PO : Permutation oth (filter (fun f => negb (P1 f)) S1 ++ filter (fun f => negb (P1 f)) R)).
          { rewrite <- filter_app. apply filter_permutation, P. }
          assert (WS : Forall wf_jf S1).
          { apply (wf_sub l _ W). intros f Hf. apply (Permutation_in f (Permutation_sym P)), in_or_app. left; exact Hf. }
          assert (RL : forall f, In f R -> In f l).
          { intros f Hf. apply (Permutation_in f (Permutation_sym P)), in_or_app. right; exact Hf. }
          destruct (filter P1 S1) as [|x xs] eqn:ES.
          + assert (NS : filter (fun f => negb (P1 f)) S1 = S1) by (apply filter_none, ES). rewrite NS in PO.
            assert (FS : forall f, In f S1 -> ~ In v (vorder (fst f))).
            { intros f Hf Hv. assert (X : In f (filter P1 S1)) by (apply filter_In; split; [exact Hf|apply mem_In, Hv]). rewrite ES in X. destruct X. }
            exists S1, (filter (fun f => negb (P1 f)) R ++ [h]). split; [|split; [|split]].
            * rewrite app_assoc. apply Permutation_app_tail, PO.
            * intros f Hf u Hu. destruct (Sc f Hf u Hu) as [<-|X]; [exfalso; exact (FS f Hf Hu)|exact X].
            * intros f g u Hf Hg Hu. apply in_app_or in Hg as [Hg|[<-|[]]].
              -- apply filter_In in Hg as [Hg _]. apply (Sep f g u Hf Hg Hu).
              -- intros X. apply Oh in X as [X _]. apply Ot in X as (g & Hg & Hgu). cbn [app] in PR.
                 assert (In g R) by (apply (Permutation_in g PR), filter_In in Hg; tauto). apply (Sep f g u Hf H Hu Hgu).
            * rewrite (SUMO S1 WS FS) in Z. apply (zero_factor_eq _ _ CV0 Z).
          + assert (XS : In x S1 /\ In v (vorder (fst x))).
            { assert (X : In x (filter P1 S1)) by (rewrite ES; left; reflexivity). apply filter_In in X as [X Y]. split; [exact X|apply mem_In, Y]. }
            assert (ER : filter P1 R = []).
            { destruct (filter P1 R) as [|y ys] eqn:EY; [reflexivity|]. exfalso. assert (X : In y (filter P1 R)) by (rewrite EY; left; reflexivity).
              apply filter_In in X as [X Y]. apply mem_In in Y. exact (Sep x y v (proj1 XS) X (proj2 XS) Y). }
            assert (NRF : filter (fun f => negb (P1 f)) R = R) by (apply filter_none, ER). rewrite NRF in PO. rewrite ER, app_nil_r in PR.
            set (So := filter (fun f => negb (P1 f)) S1) in *.
            assert (PS : Permutation S1 (So ++ (x :: xs))) by (rewrite <- ES; apply filter_split).
            assert (FSo : forall f, In f So -> ~ In v (vorder (fst f))).
            { intros f Hf Hv. apply filter_In in Hf as [_ Hf]. apply negb_true_iff in Hf. apply mem_nIn in Hf. contradiction. }
            exists (So ++ [h]), R. split; [|split; [|split]].
            * eapply Permutation_trans; [apply Permutation_app_tail, PO|]. rewrite <- !app_assoc. apply Permutation_app_head, Permutation_app_comm.
            * intros f Hf u Hu. apply in_app_or in Hf as [Hf|[<-|[]]].
              -- assert (HfS : In f S1) by (apply filter_In in Hf; tauto). destruct (Sc f HfS u Hu) as [<-|X]; [exfalso; exact (FSo f Hf Hu)|exact X].
              -- apply Oh in Hu as [Hu N]. apply Ot in Hu as (g & Hg & Hgu). apply (Permutation_in g PR) in Hg.
                 assert (HgS : In g S1) by (apply (Permutation_in g (Permutation_sym PS)), in_or_app; right; exact Hg).
                 destruct (Sc g HgS u Hgu) as [E|X]; [congruence|exact X].
            * intros f g u Hf Hg Hu. apply in_app_or in Hf as [Hf|[<-|[]]].
              -- apply filter_In in Hf as [Hf _]. apply (Sep f g u Hf Hg Hu).
              -- apply Oh in Hu as [Hu N]. apply Ot in Hu as (f & Hf & Hfu). apply (Permutation_in f PR) in Hf.
                 assert (HfS : In f S1) by (apply (Permutation_in f (Permutation_sym PS)), in_or_app; right; exact Hf).
                 exact (Sep f g u HfS Hg Hfu).
            * rewrite <- (SUMR So (x :: xs)).
              -- rewrite <- Z. apply sum_over_ext. intros b. symmetry. apply PP_perm, PS.
              -- apply (wf_sub S1 _ WS). intros f Hf. apply filter_In in Hf. tauto.
              -- apply (wf_sub S1 _ WS). intros f Hf. apply (Permutation_in f (Permutation_sym PS)), in_or_app. right; exact Hf.
              -- apply Permutation_sym, PR.
              -- exact FSo.
        - intros (S1 & R & P & Sc & Sep & Z).
          assert (WS : Forall wf_jf S1).
          { apply (wf_sub (oth ++ [h]) _ Wl). intros f Hf. apply (Permutation_in f (Permutation_sym P)), in_or_app. left; exact Hf. }
          assert (HI : In h (S1 ++ R)) by (apply (Permutation_in h P), in_or_app; right; left; reflexivity).
          assert (SPL : forall u, In u (vorder (fst h)) \/ u = v \/ ~ In u (vorder (fst t))).
          { intros u. destruct (In_dec_s u (vorder (fst t))) as [X|X]; [|auto]. destruct (string_dec u v) as [->|N]; [auto|]. left. apply Oh. auto. }
          apply in_app_or in HI as [HI|HI].
          + apply in_split in HI as (A & B & ->).
            assert (PAB : Permutation oth (A ++ B ++ R)).
            { rewrite <- app_assoc in P. apply Permutation_app_inv in P. rewrite app_nil_r in P. exact P. }
            assert (Sv : forall f, In f (A ++ B) -> In f oth).
            { intros f Hf. apply (Permutation_in f (Permutation_sym PAB)). rewrite app_assoc. apply in_or_app. left; exact Hf. }
            assert (SvR : forall f, In f R -> In f oth).
            { intros f Hf. apply (Permutation_in f (Permutation_sym PAB)). rewrite app_assoc. apply in_or_app. right; exact Hf. }
            assert (InS : forall f, In f (A ++ B) -> In f (A ++ h :: B)).
            { intros f Hf. apply in_app_or in Hf as [Hf|Hf]; apply in_or_app; [left|right; right]; exact Hf. }
            assert (InH : In h (A ++ h :: B)) by (apply in_or_app; right; left; reflexivity).
            exists ((A ++ B) ++ rel), R. split; [|split; [|split]].
            * eapply Permutation_trans; [exact PL|]. eapply Permutation_trans; [apply Permutation_app_tail, PAB|].
              rewrite app_assoc, <- !app_assoc. apply Permutation_app_head, Permutation_app_head, Permutation_app_comm.
            * intros f Hf u Hu. apply in_app_or in Hf as [Hf|Hf]; [right; apply (Sc f (InS f Hf) u Hu)|].
              destruct (string_dec u v) as [->|N]; [left; reflexivity|right]. apply (Sc h InH u). apply Oh. split; [|exact N]. apply Ot. exists f. auto.
            * intros f g u Hf Hg Hu. apply in_app_or in Hf as [Hf|Hf]; [apply (Sep f g u (InS f Hf) Hg Hu)|].
              destruct (string_dec u v) as [->|N]; [apply NO, SvR, Hg|]. apply (Sep h g u InH Hg). apply Oh. split; [|exact N]. apply Ot. exists f. auto.
            * rewrite (SUMR (A ++ B) rel).
              -- rewrite <- Z. apply sum_over_ext. intros b. apply PP_perm. rewrite <- app_assoc. apply Permutation_app_head.
                 apply Permutation_sym, Permutation_cons_append.
              -- apply (wf_sub oth _ WO). intros f Hf. apply Sv, Hf.
              -- exact WR.
              -- apply Permutation_refl.
              -- intros f Hf. apply NO, Sv, Hf.
          + apply in_split in HI as (A & B & ->).
            assert (PAB : Permutation oth (S1 ++ A ++ B)).
            { rewrite app_assoc in P. apply Permutation_app_inv in P. rewrite app_nil_r, <- app_assoc in P. exact P. }
            assert (Sv : forall f, In f S1 -> In f oth).
            { intros f Hf. apply (Permutation_in f (Permutation_sym PAB)), in_or_app. left; exact Hf. }
            exists S1, ((A ++ B) ++ rel). split; [|split; [|split]].
            * rewrite (app_assoc S1). eapply Permutation_trans; [exact PL|]. apply Permutation_app_tail, PAB.
            * intros f Hf u Hu. right. apply (Sc f Hf u Hu).
            * intros f g u Hf Hg Hu. apply in_app_or in Hg as [Hg|Hg].
              -- apply (Sep f g u Hf); [|exact Hu]. apply in_app_or in Hg as [Hg|Hg]; apply in_or_app; [left|right; right]; exact Hg.
              -- intros X. destruct (string_dec u v) as [->|N]; [apply (NO f (Sv f Hf) Hu)|].
                 apply (Sep f h u Hf); [apply in_or_app; right; left; reflexivity|exact Hu|]. apply Oh. split; [|exact N]. apply Ot. exists g. auto.
            * rewrite SUMO; [rewrite Z; apply Qcmult_0_r|exact WS|]. intros f Hf. apply NO, Sv, Hf. }
      destruct (IH (fun x Hx => IV x (or_intror Hx)) (fun x Hx => CP x (or_intror Hx)) (S k) (oth ++ [h]) Wl) as [[E D]|(l' & E & D & Wl' & NE & Cl)].
      * intros u Hu. apply CV. split; [apply C; right; exact Hu|]. intros ->; contradiction.
      * intros f Hf Tf. apply in_app_or in Hf as [Hf|[<-|[]]].
        -- apply TR; [apply filter_In in Hf; tauto|exact Tf].
        -- intros Z. apply NF. split; [|rewrite <- (proj1 (Vh a0 R0)); exact Z].
           intros u Hu. destruct (string_dec u v) as [X|N]; [exact X|]. exfalso. assert (X : In u (vorder (fst h))) by (apply Oh; auto).
           rewrite Tf in X. destruct X.
      * left. split; [exact E|]. apply EQ, D.
      * right. exists l'. split; [exact E|]. split; [intros X; apply D, EQ, X|]. split; [exact Wl'|]. split.
        -- intros _. apply NE. destruct oth; discriminate.
        -- intros u. rewrite Cl, CV. cbn. intuition congruence.
Qed.

Theorem VE_outcome a0 l vs : inrange card vars a0 -> NoDup vs -> incl vs vars -> (forall v, In v vs -> 0 < card v) ->
  Forall wf_jf l -> l <> [] -> (forall v, In v vs -> covered l v) ->
  (forall f, In f l -> vorder (fst f) = [] -> feval (fst f) a0 <> 0%Qc) ->
  (generalized_VE l vs = Err FloatingPointError /\ dead l vs a0) \/
  (exists r, generalized_VE l vs = Ok r /\ ~ dead l vs a0 /\ wf_jf r /\ forall v, In v (vorder (fst r)) <-> covered l v /\ ~ In v vs).
Proof.
  intros R0 ND IV CP W NE C TR. unfold generalized_VE.
  destruct (eliminate_outcome a0 R0 vs ND IV CP 0 l W C TR) as [[E D]|(l' & E & D & W' & N' & C')]; rewrite E; cbn [rbind].
  - left. auto.
  - right. destruct (combine_spec dom vars (length vs) l' W' (N' NE)) as (r & Er & Wr & Or & _). exists r. split; [exact Er|].
    split; [exact D|]. split; [exact Wr|]. intros v. rewrite Or. apply C'.
Qed.
End Elim.
