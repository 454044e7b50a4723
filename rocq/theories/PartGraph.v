(** Graphs of several components: what the construction of the join tree does in one. *)
From Verif Require Import Base BaseFacts NDArray Factor Exact Spec SpecFacts SepSpec Order OrderSpec JoinTree TreeSpec.

(** The entries of a dictionary whose keys satisfy [P]. *)
Definition dpart {A} (P : string -> bool) (d : dict A) : dict A := filter (fun p => P (fst p)) d.

Section Dict.
Variable P : string -> bool.

Lemma dpart_get {A} k (d : dict A) : P k = true -> dget k (dpart P d) = dget k d.
Proof.
  intros H. induction d as [|(k', x) d IH]; cbn; [reflexivity|]. destruct (String.eqb_spec k k') as [<-|N].
  - rewrite H. cbn. now rewrite String.eqb_refl.
  - destruct (P k'); cbn; [|exact IH]. apply String.eqb_neq in N. now rewrite N.
Qed.

Lemma dpart_set {A} k x (d : dict A) : dpart P (dset k x d) = if P k then dset k x (dpart P d) else dpart P d.
Proof.
  unfold dpart. induction d as [|(k', y) d IH]; cbn.
  - destruct (P k); reflexivity.
  - destruct (String.eqb_spec k k') as [<-|N]; cbn.
    + destruct (P k); cbn; [now rewrite String.eqb_refl|reflexivity].
    + apply String.eqb_neq in N. destruct (P k') eqn:E; cbn; rewrite ?N, IH; destruct (P k); reflexivity.
Qed.

Lemma dpart_del {A} k (d : dict A) : dpart P (ddel k d) = if P k then ddel k (dpart P d) else dpart P d.
Proof.
  unfold dpart. induction d as [|(k', y) d IH]; cbn.
  - destruct (P k); reflexivity.
  - destruct (String.eqb_spec k k') as [<-|N]; cbn.
    + destruct (P k); cbn; [now rewrite String.eqb_refl|reflexivity].
    + apply String.eqb_neq in N. destruct (P k') eqn:E; cbn; rewrite ?N, IH; destruct (P k); reflexivity.
Qed.

Lemma dpart_mem {A} k (d : dict A) : P k = true -> dmem k (dpart P d) = dmem k d.
Proof. intros H. unfold dmem. now rewrite dpart_get. Qed.

Lemma dpart_nbrs g v : P v = true -> neighbours (dpart P g) v = neighbours g v.
Proof. intros H. unfold neighbours. now rewrite dpart_get. Qed.

Lemma dpart_keys {A} (d : dict A) : dkeys (dpart P d) = filter P (dkeys d).
Proof. unfold dpart, dkeys. induction d as [|(k, x) d IH]; cbn; [reflexivity|]. destruct (P k); cbn; now rewrite IH. Qed.

Lemma dpart_ensure u g : dpart P (ensure u g) = if P u then ensure u (dpart P g) else dpart P g.
Proof.
  unfold ensure. destruct (P u) eqn:E.
  - rewrite dpart_mem by exact E. destruct (dmem u g); [reflexivity|]. now rewrite dpart_set, E.
  - destruct (dmem u g); [reflexivity|]. now rewrite dpart_set, E.
Qed.

Lemma dpart_add_nbr u v g : dpart P (add_nbr u v g) = if P u then add_nbr u v (dpart P g) else dpart P g.
Proof.
  unfold add_nbr. destruct (P u) eqn:E.
  - rewrite dpart_nbrs by exact E. destruct (mem v (neighbours g u)); [reflexivity|]. now rewrite dpart_set, E.
  - destruct (mem v (neighbours g u)); [reflexivity|]. now rewrite dpart_set, E.
Qed.

Lemma dpart_add_uedge u v g : P u = P v -> dpart P (add_uedge u v g) = if P u then add_uedge u v (dpart P g) else dpart P g.
Proof.
  intros E. unfold add_uedge. rewrite dpart_add_nbr, dpart_add_nbr, dpart_ensure, dpart_ensure, <- E. destruct (P u); reflexivity.
Qed.

Definition both (e : string * string) : bool := P (fst e).
Lemma dpart_edges l : (forall e, In e l -> P (fst e) = P (snd e)) -> forall g,
  dpart P (fold_left (fun g e => add_uedge (fst e) (snd e) g) l g) =
  fold_left (fun g e => add_uedge (fst e) (snd e) g) (filter both l) (dpart P g).
Proof.
  induction l as [|e l IH]; intros H g; cbn [fold_left filter]; [reflexivity|].
  rewrite IH by (intros; apply H; now right). rewrite dpart_add_uedge by (apply H; now left). unfold both at 2. destruct (P (fst e)); reflexivity.
Qed.

Lemma filter_flat_map {A B} (f : A -> list B) (p : A -> bool) (q : B -> bool) l : (forall a x, In x (f a) -> q x = p a) ->
  filter q (flat_map f l) = flat_map f (filter p l).
Proof.
  intros H. induction l as [|a l IH]; cbn; [reflexivity|]. rewrite filter_app, IH.
  assert (E : filter q (f a) = if p a then f a else []).
  { specialize (H a). induction (f a) as [|x m IHm]; cbn; [now destruct (p a)|]. rewrite (H x (or_introl eq_refl)), IHm by (intros; apply H; now right). destruct (p a); reflexivity. }
  rewrite E. destruct (p a); reflexivity.
Qed.

(** ** The moral graph *)
Definition apart_edges (g : ugraph) : Prop := forall k l w, In (k, l) g -> In w l -> P w = P k.

Lemma apart_ensure u g : apart_edges g -> apart_edges (ensure u g).
Proof.
  intros H k l w Hk Hw. unfold ensure in Hk. destruct (dmem u g); [eauto|].
  revert Hk. clear -H Hw. induction g as [|(k', l') g IH]; cbn.
  - intros [E|[]]. injection E as <- <-. destruct Hw.
  - destruct (String.eqb u k'); intros [E|Hk].
    + injection E as <- <-. destruct Hw.
    + apply (H k l w); [now right|exact Hw].
    + injection E as <- <-. apply (H k' l' w); [now left|exact Hw].
    + apply IH; [|exact Hk]. intros a b c Hb. apply H. now right.
Qed.

Lemma dset_in {A} k x (d : dict A) k' y : In (k', y) (dset k x d) -> (k' = k /\ y = x) \/ In (k', y) d.
Proof.
  induction d as [|(k2, z) d IH]; cbn.
  - intros [E|[]]. injection E as <- <-. auto.
  - destruct (String.eqb_spec k k2) as [<-|N]; cbn; intros [E|H].
    + injection E as <- <-. auto.
    + auto.
    + auto.
    + destruct (IH H); auto.
Qed.

Lemma apart_add_nbr u v g : P u = P v -> apart_edges g -> apart_edges (add_nbr u v g).
Proof.
  intros E H k l w Hk Hw. unfold add_nbr in Hk. destruct (mem v (neighbours g u)); [eauto|].
  apply dset_in in Hk as [[-> ->]|Hk]; [|eauto]. apply in_app_iff in Hw as [Hw|[<-|[]]]; [|congruence].
  unfold neighbours in Hw. destruct (dget u g) as [l'|] eqn:G; [|destruct Hw]. apply dget_In in G. eauto.
Qed.

Lemma apart_add_uedge u v g : P u = P v -> apart_edges g -> apart_edges (add_uedge u v g).
Proof. intros E H. unfold add_uedge. apply apart_add_nbr; [congruence|]. apply apart_add_nbr; [exact E|]. now apply apart_ensure, apart_ensure. Qed.

Lemma apart_fold l : (forall e, In e l -> P (fst e) = P (snd e)) -> forall g, apart_edges g ->
  apart_edges (fold_left (fun g e => add_uedge (fst e) (snd e) g) l g).
Proof.
  induction l as [|e l IH]; intros H g A; cbn [fold_left]; [exact A|]. apply IH; [intros; apply H; now right|].
  apply apart_add_uedge; [apply H; now left|exact A].
Qed.

Lemma ddel_in {A} k (d : dict A) p : In p (ddel k d) -> In p d.
Proof. induction d as [|(k', x) d IH]; cbn; [tauto|]. destruct (String.eqb k k'); cbn; tauto. Qed.
Lemma remove1_in x l y : In y (remove1 x l) -> In y l.
Proof. induction l as [|z l IH]; cbn; [tauto|]. destruct (String.eqb x z); cbn; tauto. Qed.
Lemma remove1_none x l : ~ In x l -> remove1 x l = l.
Proof.
  induction l as [|z l IH]; cbn; intros N; [reflexivity|]. destruct (String.eqb_spec x z) as [->|D]; [tauto|]. rewrite IH; tauto.
Qed.

Lemma apart_remove v g : apart_edges g -> apart_edges (remove_unode v g).
Proof.
  intros H k l w Hk Hw. unfold remove_unode in Hk. apply in_map_iff in Hk as ((k', l') & E & Hk). cbn in E. injection E as <- <-.
  apply (H k' l' w); [now apply ddel_in in Hk|now apply remove1_in in Hw].
Qed.

Lemma dpart_map {A B} (f : string -> A -> B) (d : dict A) : dpart P (map (fun p => (fst p, f (fst p) (snd p))) d) = map (fun p => (fst p, f (fst p) (snd p))) (dpart P d).
Proof. unfold dpart. induction d as [|(k, x) d IH]; cbn; [reflexivity|]. destruct (P k); cbn; now rewrite IH. Qed.

Lemma dpart_remove v g : apart_edges g -> dpart P (remove_unode v g) = if P v then remove_unode v (dpart P g) else dpart P g.
Proof.
  intros H. unfold remove_unode. rewrite (dpart_map (fun _ l => remove1 v l)), dpart_del. destruct (P v) eqn:E; [reflexivity|].
  unfold dpart. assert (G : forall l : ugraph, (forall p, In p l -> In p g) -> map (fun p => (fst p, remove1 v (snd p))) (filter (fun p => P (fst p)) l) = filter (fun p => P (fst p)) l).
  { induction l as [|(k, m) l IH]; intros I; cbn; [reflexivity|]. destruct (P k) eqn:Ek; cbn; rewrite IH by (intros; apply I; now right); [|reflexivity].
    rewrite remove1_none; [reflexivity|]. intros Hv. specialize (H k m v (I _ (or_introl eq_refl)) Hv). congruence. }
  apply G. auto.
Qed.

(** ** Clusters *)
Definition here (c : list string) : bool := match c with [] => false | v :: _ => P v end.
Definition uniform (c : list string) : Prop := c <> [] /\ forall v w, In v c -> In w c -> P v = P w.

Lemma uniform_here c v : uniform c -> In v c -> P v = here c.
Proof. intros [N H] Hv. destruct c as [|w c]; [congruence|]. cbn. apply H; [exact Hv|now left]. Qed.

Lemma cluster_part : forall o g cs, apart_edges g -> cluster_seq o g = Ok cs ->
  Forall uniform cs /\ cluster_seq (filter P o) (dpart P g) = Ok (filter here cs).
Proof.
  induction o as [|v o IH]; intros g cs A E; cbn [cluster_seq] in E.
  - injection E as <-. split; [constructor|reflexivity].
  - destruct (dmem v g) eqn:M; [|discriminate]. destruct (cluster_seq o (remove_unode v g)) as [r|] eqn:Er; cbn [rbind] in E; [|discriminate]. injection E as <-.
    destruct (IH _ _ (apart_remove v g A) Er) as [U I]. split.
    + constructor; [|exact U]. split; [discriminate|].
      assert (G : forall w, In w (v :: neighbours g v) -> P w = P v).
      { intros w [<-|Hw]; [reflexivity|]. unfold neighbours in Hw. destruct (dget v g) as [l|] eqn:G; [|destruct Hw]. apply dget_In in G. eauto. }
      intros a c Ha Hc. rewrite (G a Ha), (G c Hc). reflexivity.
    + rewrite dpart_remove in I by exact A. cbn [filter here]. destruct (P v) eqn:Ev; [|exact I].
      cbn [cluster_seq]. rewrite dpart_mem, M by exact Ev. rewrite I. cbn [rbind]. now rewrite dpart_nbrs.
Qed.

(** ** Pruning *)
Fixpoint replace1 (R M : list string) (l : list (list string)) : list (list string) :=
  match l with [] => [] | d :: l' => if lseqb R d then M :: l' else d :: replace1 R M l' end.

Lemma insert_replace R M : forall l i, cindex R l = Some i -> list_insert i M (cremove R l) = replace1 R M l.
Proof.
  induction l as [|d l IH]; intros i E; cbn in *; [discriminate|]. destruct (lseqb R d).
  - injection E as <-. reflexivity.
  - destruct (cindex R l) as [j|]; [|discriminate]. injection E as <-. cbn. now rewrite (IH j).
Qed.

Lemma lseqb_iff : forall a c, lseqb a c = true <-> a = c.
Proof.
  induction a as [|x a IH]; intros [|y c]; cbn; split; try discriminate; try reflexivity.
  - rewrite andb_true_iff, String.eqb_eq, IH. intros [-> ->]. reflexivity.
  - intros E. injection E as -> ->. now rewrite String.eqb_refl, (proj2 (IH c) eq_refl).
Qed.

Lemma lseqb_refl a : lseqb a a = true.
Proof. now apply lseqb_iff. Qed.

Section Swap.
Variable h : list string -> bool.

Lemma filter_cremove c l : filter h (cremove c l) = if h c then cremove c (filter h l) else filter h l.
Proof.
  induction l as [|d l IH]; cbn; [destruct (h c); reflexivity|]. destruct (lseqb c d) eqn:E.
  - apply lseqb_iff in E. subst d. destruct (h c) eqn:Hc; cbn; [now rewrite lseqb_refl|reflexivity].
  - cbn. rewrite IH. destruct (h d) eqn:Hd, (h c); cbn; rewrite ?E; reflexivity.
Qed.

Lemma filter_replace1 R M l : h R = h M -> filter h (replace1 R M l) = if h R then replace1 R M (filter h l) else filter h l.
Proof.
  intros H. induction l as [|d l IH]; cbn; [destruct (h R); reflexivity|]. destruct (lseqb R d) eqn:E.
  - apply lseqb_iff in E. subst d. cbn. rewrite <- H. destruct (h R) eqn:HR; cbn; [now rewrite lseqb_refl|reflexivity].
  - cbn. rewrite IH. destruct (h d) eqn:Hd, (h R); cbn; rewrite ?E; reflexivity.
Qed.

Lemma cindex_in c l : (exists i, cindex c l = Some i) <-> In c l.
Proof.
  induction l as [|d l IH]; cbn.
  - split; [intros [i E]; discriminate|intros []].
  - destruct (lseqb c d) eqn:E.
    + apply lseqb_iff in E. split; [auto|eauto].
    + assert (N : d <> c) by (intros ->; rewrite lseqb_refl in E; discriminate). destruct (cindex c l) as [i|].
      * split; [intros _; right; apply IH; eauto|eauto].
      * split; [intros [i E']; discriminate|]. intros [->|H]; [congruence|]. apply IH in H as [i H]. discriminate.
Qed.

Lemma swap1_eq l p : swap1 l p = match cindex (fst p) l with None => Err ValueError | Some _ => Ok (cremove (snd p) (replace1 (fst p) (snd p) l)) end.
Proof. unfold swap1. destruct (cindex (fst p) l) as [i|] eqn:E; [|reflexivity]. now rewrite (insert_replace _ _ _ _ E). Qed.

Lemma swap1_part l p l' : h (fst p) = h (snd p) -> swap1 l p = Ok l' ->
  if h (fst p) then swap1 (filter h l) p = Ok (filter h l') else filter h l' = filter h l.
Proof.
  intros H E. rewrite swap1_eq in E. destruct (cindex (fst p) l) as [i|] eqn:Ei; [|discriminate]. injection E as <-.
  rewrite filter_cremove, filter_replace1 by exact H. rewrite <- H. destruct (h (fst p)) eqn:Hp; [|reflexivity].
  rewrite swap1_eq. destruct (cindex (fst p) (filter h l)) as [j|] eqn:Ej; [reflexivity|]. exfalso.
  assert (X : In (fst p) (filter h l)) by (apply filter_In; split; [apply cindex_in; eauto|exact Hp]).
  apply cindex_in in X as [j X]. congruence.
Qed.

Lemma swaps_part : forall sw l l', (forall p, In p sw -> h (fst p) = h (snd p)) -> foldM swap1 sw l = Ok l' ->
  foldM swap1 (filter (fun p => h (fst p)) sw) (filter h l) = Ok (filter h l').
Proof.
  induction sw as [|p sw IH]; intros l l' H E; cbn [foldM filter] in *; [now injection E as <-|].
  destruct (swap1 l p) as [l1|] eqn:E1; cbn [rbind] in E; [|discriminate].
  assert (X := swap1_part l p l1 (H p (or_introl eq_refl)) E1). specialize (IH l1 l' (fun q Hq => H q (or_intror Hq)) E).
  destruct (h (fst p)); cbn [foldM]; rewrite X in *; [exact IH|exact IH].
Qed.
End Swap.

Lemma subset_here c d : uniform c -> uniform d -> subset c d = true -> here c = here d.
Proof.
  intros Uc Ud S. destruct c as [|v c]; [destruct Uc; congruence|]. cbn [here]. apply andb_true_iff in S as [S _]. apply mem_In in S.
  now apply uniform_here.
Qed.

Lemma superset_part c : uniform c -> here c = true -> forall l, Forall uniform l -> last_superset c (filter here l) = last_superset c l.
Proof.
  intros Uc Hc. induction l as [|d l IH]; intros U; [reflexivity|]. cbn [last_superset filter]. inversion_clear U as [|? ? Ud Ul].
  destruct (here d) eqn:Hd; cbn [last_superset]; rewrite IH by exact Ul; [reflexivity|].
  destruct (last_superset c l); [reflexivity|]. destruct (subset c d) eqn:E; [|reflexivity].
  apply subset_here in E; [congruence|assumption|assumption].
Qed.

Lemma superset_in c : forall l d, last_superset c l = Some d -> In d l /\ subset c d = true.
Proof.
  induction l as [|e l IH]; intros d E; cbn in E; [discriminate|]. destruct (last_superset c l) as [e'|].
  - injection E as ->. destruct (IH d eq_refl). split; [now right|assumption].
  - destruct (subset c e) eqn:S; [|discriminate]. injection E as ->. split; [now left|exact S].
Qed.

Lemma swaps_up_part : forall l pre, Forall uniform pre -> Forall uniform l ->
  filter (fun p => here (fst p)) (swaps_up pre l) = swaps_up (filter here pre) (filter here l).
Proof.
  induction l as [|c l IH]; intros pre Up U; [reflexivity|]. cbn [swaps_up filter]. inversion_clear U as [|? ? Uc Ul].
  rewrite filter_app, IH; [|apply Forall_app; auto|exact Ul]. rewrite filter_app. cbn [filter].
  destruct (here c) eqn:Hc.
  - cbn [swaps_up]. rewrite superset_part by assumption. destruct (last_superset c pre); cbn [filter fst]; rewrite ?Hc; reflexivity.
  - rewrite app_nil_r. destruct (last_superset c pre); cbn [filter fst]; rewrite ?Hc; reflexivity.
Qed.

Lemma swaps_up_in : forall l pre p, In p (swaps_up pre l) -> In (fst p) l /\ In (snd p) (pre ++ l) /\ subset (fst p) (snd p) = true.
Proof.
  induction l as [|c l IH]; intros pre p H; [destruct H|]. cbn [swaps_up] in H. apply in_app_iff in H as [H|H].
  - destruct (last_superset c pre) as [d|] eqn:E; [|destruct H]. destruct H as [<-|[]]. apply superset_in in E as [I S]. cbn.
    split; [now left|]. split; [apply in_app_iff; now left|exact S].
  - apply IH in H as (A & B & C). rewrite <- app_assoc in B. split; [now right|]. split; [exact B|exact C].
Qed.

Lemma filter_rev {A} (f : A -> bool) l : filter f (rev l) = rev (filter f l).
Proof. induction l as [|x l IH]; cbn; [reflexivity|]. rewrite filter_app, IH. cbn. destruct (f x); cbn; [reflexivity|apply app_nil_r]. Qed.

Lemma prune_part l l' : Forall uniform l -> prune l = Ok l' -> prune (filter here l) = Ok (filter here l').
Proof.
  intros U E. unfold prune in *. assert (X : swaps (filter here l) = filter (fun p => here (fst p)) (swaps l)).
  { unfold swaps. rewrite filter_rev. f_equal. symmetry. apply (swaps_up_part l []); [constructor|exact U]. }
  rewrite X. apply swaps_part; [|exact E]. intros p Hp. unfold swaps in Hp. apply in_rev, swaps_up_in in Hp as (A & B & C).
  rewrite Forall_forall in U. apply subset_here; auto.
Qed.

Lemma cremove_in c l d : In d (cremove c l) -> In d l.
Proof. induction l as [|e l IH]; cbn; [tauto|]. destruct (lseqb c e); cbn; tauto. Qed.
Lemma replace1_in R M l d : In d (replace1 R M l) -> d = M \/ In d l.
Proof. induction l as [|e l IH]; cbn; [tauto|]. destruct (lseqb R e); cbn; [intros [->|H]; auto|]. intros [->|H]; [auto|]. apply IH in H as [H|H]; auto. Qed.

Lemma prune_in l l' : prune l = Ok l' -> incl l' l.
Proof.
  unfold prune. assert (G : forall sw m m', (forall p, In p sw -> In (snd p) l) -> incl m l -> foldM swap1 sw m = Ok m' -> incl m' l).
  { induction sw as [|p sw IH]; intros m m' H I E; cbn [foldM] in E; [now injection E as <-|].
    destruct (swap1 m p) as [m1|] eqn:E1; cbn [rbind] in E; [|discriminate]. rewrite swap1_eq in E1. destruct (cindex (fst p) m); [|discriminate]. injection E1 as <-.
    apply (IH _ _ (fun q Hq => H q (or_intror Hq)) ) in E; [exact E|]. intros d Hd. apply cremove_in, replace1_in in Hd as [->|Hd]; [apply H; now left|auto]. }
  apply G; [|apply incl_refl]. intros p Hp. unfold swaps in Hp. apply in_rev, swaps_up_in in Hp as (_ & B & _). exact B.
Qed.
End Dict.
