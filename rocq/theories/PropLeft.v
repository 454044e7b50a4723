(** C74.  Calls that raise do not spoil a FactorTree. *)
From Verif Require Import Base BaseFacts NDArray Factor Exact Spec Order OrderSpec JoinTree TreeSpec Instances ExampleNets Checks FactorProofs JTDefault PropVE PropTree ErrSpec TreeErrSpec LeftSpec LeftProof.

(** ** Whatever evidence set_evidence is given, and whether or not it raises, the tree stands afterwards for the
    items before the first faulty one ([leaves], LeftSpec.v), and only for these. *)
Theorem C74_left {SO : SetOrder} b0 t b1 ev1 b ev post :
  lives b0 t b1 ev1 -> same_arcs b0 b -> wf_bn b -> nonneg_bn b -> NoDup (dkeys ev) -> weights_ok ev ->
  exists ev', leaves b post ev ev' /\ (forall ev'', leaves b post ev ev'' -> ev'' = ev') /\ lives b0 (fst (set_evidence b ev post t)) b ev'.
Proof.
  intros L SA WB NN ND W. destruct (lives_next b0 t b1 ev1 b ev post L SA WB NN ND W) as (ev' & LV & L'). exists ev'. split; [exact LV|].
  split; [intros ev'' LV'; exact (leaves_one b post ev ev'' ev' LV' LV)|exact L'].
Qed.

(** ** A call that does not raise leaves all the evidence. *)
Theorem C74_all {SO : SetOrder} b0 t b1 ev1 b ev post ev' :
  lives b0 t b1 ev1 -> same_arcs b0 b -> wf_bn b -> nonneg_bn b -> NoDup (dkeys ev) -> weights_ok ev -> leaves b post ev ev' ->
  (exists u, snd (set_evidence b ev post t) = Ok u) -> read_as b post ev ev' /\ (post = false -> ev' = ev).
Proof.
  intros L SA WB NN ND W LV E. assert (R := leaves_success b0 t b1 ev1 b ev post ev' L SA WB NN ND W LV E). split; [exact R|].
  intros ->. apply (read_same b), R.
Qed.

(** ** After every history, with calls that raise anywhere in it, the answers are the posteriors given what was
    left ... *)
Theorem C74_answers {SO : SetOrder} b0 t b ev Q :
  lives b0 t b ev -> NoDup Q -> answers t Q -> exists f, snd (tmarginals t Q) = Ok f /\ reports b f Q (posterior b ev).
Proof. exact (lives_report b0 t b ev Q). Qed.

(** ** ... and queries that are not within a clique are refused. *)
Theorem C74_refuses {SO : SetOrder} b0 t b ev Q e :
  lives b0 t b ev -> (snd (tmarginals t Q) = Err e <-> e = ValueError /\ ~ answers t Q).
Proof. exact (lives_refuse b0 t b ev Q e). Qed.

(** ** Examples: a call that raises at its second item, and one with an unknown name among desired posteriors. *)
Example C74_example : let t := the_tree (SO := listing_order) in
  let bad := [("A", Hard "t"); ("C", Hard "maybe"); ("D", Hard "t")] in
  lives (SO := listing_order) net t net [] /\ NoDup (dkeys bad) /\ weights_ok bad /\
  leaves net false bad [("A", Hard "t")] /\ snd (set_evidence (SO := listing_order) net bad false t) = Err ValueError /\
  lives (SO := listing_order) net (fst (set_evidence (SO := listing_order) net bad false t)) net [("A", Hard "t")] /\
  leaves net true [("A", Hard "t"); ("Nope", Hard "t")] [] /\
  lives (SO := listing_order) net (fst (set_evidence (SO := listing_order) net [("A", Hard "t"); ("Nope", Hard "t")] true t)) net [].
Proof.
  cbv zeta. assert (L : lives (SO := listing_order) net (the_tree (SO := listing_order)) net []).
  { apply (V_create (SO := listing_order) net None ["D"; "A"; "B"; "C"]); [reflexivity|exact net_suits|exact net_nonneg|vm_compute; reflexivity]. }
  assert (W : forall l : evidence, (forall p, In p l -> exists v x, p = (v, Hard x)) -> weights_ok l).
  { intros l H v q X. destruct (H _ X) as (v' & x & E). discriminate. }
  assert (W1 : weights_ok [("A", Hard "t"); ("C", Hard "maybe"); ("D", Hard "t")]) by (apply W; intros p [<-|[<-|[<-|[]]]]; eauto).
  assert (W2 : weights_ok [("A", Hard "t"); ("Nope", Hard "t")]) by (apply W; intros p [<-|[<-|[]]]; eauto).
  assert (N : ~ In "Nope" (bnames net)) by (vm_compute; intros H; repeat (destruct H as [H|H]; [discriminate|]); exact H).
  assert (L1 : leaves net false [("A", Hard "t"); ("C", Hard "maybe"); ("D", Hard "t")] [("A", Hard "t")]).
  { apply (L_front _ _ _ [("A", Hard "t")] [("C", Hard "maybe"); ("D", Hard "t")]); [discriminate|reflexivity| |exists ValueError|].
    - intros w y z [X|[]] F. injection X as <- <-. inversion F as [A|A B|? ? A]; [apply A; vm_compute; auto|apply B; vm_compute; auto|discriminate].
    - apply I_improper; [vm_compute; auto|]. cbn. vm_compute. intros H. repeat (destruct H as [H|H]; [discriminate|]); exact H.
    - apply read_hard, read_nil. }
  assert (L2 : leaves net true [("A", Hard "t"); ("Nope", Hard "t")] []) by (apply (L_nothing _ _ _ "Nope"); [reflexivity|cbn; auto|exact N]).
  split; [exact L|]. split; [apply nodup_s_spec; reflexivity|]. split; [exact W1|]. split; [exact L1|].
  split; [vm_compute; reflexivity|]. split; [|split; [exact L2|]].
  - eapply (V_evidence (SO := listing_order)); [exact L|reflexivity|exact net_wf|exact net_nonneg|apply nodup_s_spec; reflexivity|exact W1|exact L1].
  - eapply (V_evidence (SO := listing_order)); [exact L|reflexivity|exact net_wf|exact net_nonneg|apply nodup_s_spec; reflexivity|exact W2|exact L2].
Qed.

Print Assumptions C74_left.
Print Assumptions C74_all.
Print Assumptions C74_answers.
Print Assumptions C74_refuses.
