(** The part of a join tree that belongs to one component: every operation works on it as
    on a tree of its own. *)
From Verif Require Import Base BaseFacts NDArray Factor Exact Spec SpecFacts SepSpec Order OrderSpec JoinTree HuginPure Hugin JTProof PartGraph PartSpec.

Definition tpart (K : string -> bool) (t : jtree) : jtree :=
  mkT (dpart K (tnodes t)) (dpart K (tadj t)) (filter (fun e => K (fst (fst e))) (tedges t)) (tvalid t).

Lemma part_eq S t : part S t = tpart (inside S t) t.
Proof. reflexivity. Qed.

Lemma tpart_ext K K' t : (forall k, K k = K' k) -> tpart K t = tpart K' t.
Proof. intros H. unfold tpart, dpart. f_equal; apply filter_ext; intros; apply H. Qed.

Section Part.
Context {SO : SetOrder}.
Variable K : string -> bool.

Lemma same_edge_part u v e : K u = K v -> same_edge u v e = true -> K (fst e) = K u.
Proof.
  intros H E. unfold same_edge in E. apply orb_true_iff in E as [E|E]; apply andb_true_iff in E as [E1 E2]; apply String.eqb_eq in E1, E2; congruence.
Qed.

Lemma eget_part u v l : K u = true -> K v = true -> eget u v (filter (fun e => K (fst (fst e))) l) = eget u v l.
Proof.
  intros Hu Hv. induction l as [|(e, d) l IH]; cbn; [reflexivity|]. destruct (same_edge u v e) eqn:E.
  - rewrite (same_edge_part u v e) by congruence. rewrite Hu. cbn. now rewrite E.
  - destruct (K (fst e)); cbn; [|exact IH]. now rewrite E.
Qed.

Lemma eset_part u v d l : K u = K v -> filter (fun e => K (fst (fst e))) (eset u v d l) =
  if K u then eset u v d (filter (fun e => K (fst (fst e))) l) else filter (fun e => K (fst (fst e))) l.
Proof.
  intros H. induction l as [|(e, d') l IH]; cbn; [destruct (K u); reflexivity|]. destruct (same_edge u v e) eqn:E.
  - cbn. rewrite (same_edge_part u v e H E). destruct (K u); cbn; [now rewrite E|reflexivity].
  - cbn. rewrite IH. destruct (K (fst e)), (K u); cbn; rewrite ?E; reflexivity.
Qed.

Lemma tpart_set_cfac k f t : tpart K (set_cfac k f t) = if K k then set_cfac k f (tpart K t) else tpart K t.
Proof.
  unfold set_cfac. destruct (K k) eqn:E.
  - cbn [tpart tnodes]. rewrite dpart_get by exact E. destruct (dget k (tnodes t)) as [c|]; [|reflexivity]. unfold tpart; cbn [tnodes tadj tedges tvalid]. now rewrite dpart_set, E.
  - destruct (dget k (tnodes t)) as [c|]; [|reflexivity]. unfold tpart; cbn [tnodes tadj tedges tvalid]. now rewrite dpart_set, E.
Qed.

Lemma tpart_set_sfac u v f t : K u = K v -> tpart K (set_sfac u v f t) = if K u then set_sfac u v f (tpart K t) else tpart K t.
Proof.
  intros H. unfold set_sfac. destruct (K u) eqn:E.
  - cbn [tpart tedges]. rewrite eget_part by congruence. destruct (eget u v (tedges t)) as [d|]; [|reflexivity]. unfold tpart; cbn [tnodes tadj tedges tvalid]. rewrite eset_part by congruence. now rewrite E.
  - destruct (eget u v (tedges t)) as [d|]; [|reflexivity]. unfold tpart; cbn [tnodes tadj tedges tvalid]. rewrite eset_part by congruence. now rewrite E.
Qed.

Definition mirrors (r : jtree * res unit) (s : jtree * res unit) : Prop := s = (tpart K (fst r), snd r).

Lemma send_part u v t : K u = true -> K v = true -> mirrors (send u v t) (send u v (tpart K t)).
Proof.
  intros Hu Hv. unfold mirrors, send. cbn [tpart tnodes tedges]. rewrite eget_part by assumption. unfold dget_err. rewrite !dpart_get by assumption.
  fold (tpart K t).
  destruct (dget u (tnodes t)) as [c|]; cbn [rbind]; [|reflexivity].
  destruct (eget u v (tedges t)) as [s|]; cbn [rbind]; [|reflexivity].
  destruct (marginalize (cfac c) (sdiff (cvars c) (svars s))) as [new|]; cbn [rbind]; [|reflexivity].
  destruct (dget v (tnodes t)) as [d|]; cbn [rbind]; [|reflexivity].
  destruct (fdiv new (sfac s)) as [q|]; cbn [rbind]; [|reflexivity].
  destruct (fmul (cfac d) q) as [f|]; cbn [rbind]; [|reflexivity].
  cbn [fst snd]. rewrite tpart_set_sfac by congruence. rewrite Hu, tpart_set_cfac, Hv. reflexivity.
Qed.

Lemma send_frame u v t : K u = false -> K v = false -> tpart K (fst (send u v t)) = tpart K t.
Proof.
  intros Hu Hv. unfold send.
  destruct (dget_err KeyError u (tnodes t)) as [c|]; cbn [rbind fst]; [|reflexivity].
  destruct (eget u v (tedges t)) as [s|]; cbn [rbind fst]; [|reflexivity].
  destruct (marginalize (cfac c) (sdiff (cvars c) (svars s))) as [new|]; cbn [rbind fst]; [|reflexivity].
  destruct (dget_err KeyError v (tnodes t)) as [d|]; cbn [rbind fst]; [|reflexivity].
  destruct (fdiv new (sfac s)) as [q|]; cbn [rbind fst]; [|reflexivity].
  destruct (fmul (cfac d) q) as [f|]; cbn [rbind fst]; [|reflexivity].
  rewrite tpart_set_sfac by congruence. rewrite Hu, tpart_set_cfac, Hv. reflexivity.
Qed.

(** Neighbours are on the same side. *)
Definition tclosed (t : jtree) : Prop := forall k w, In w (neighbours (tadj t) k) -> K w = K k.

Lemma skel_adj t t' : skel t = skel t' -> tadj t = tadj t'.
Proof. intros E. apply (f_equal tadj) in E. exact E. Qed.

Lemma tclosed_skel t t' : skel t = skel t' -> tclosed t -> tclosed t'.
Proof. intros E C k w. rewrite <- (skel_adj _ _ E). apply C. Qed.

Lemma each_part {A} (f g : A -> jtree -> jtree * res unit) l : forall t, tclosed t ->
  (forall x t, In x l -> tclosed t -> mirrors (f x t) (g x (tpart K t)) /\ skel (fst (f x t)) = skel t) ->
  mirrors (each f l t) (each g l (tpart K t)).
Proof.
  induction l as [|x l IH]; intros t C H; [reflexivity|]. cbn [each].
  destruct (H x t (or_introl eq_refl) C) as [M S]. unfold mirrors in M. destruct (f x t) as [t1 r]. rewrite M. cbn [fst snd] in *.
  destruct r as [u|e]; [|reflexivity]. apply IH; [apply (tclosed_skel t); [now symmetry|exact C]|]. intros y t' Hy. apply H. now right.
Qed.

Lemma each_frame {A} (f : A -> jtree -> jtree * res unit) l : forall t, tclosed t ->
  (forall x t, In x l -> tclosed t -> tpart K (fst (f x t)) = tpart K t /\ skel (fst (f x t)) = skel t) ->
  tpart K (fst (each f l t)) = tpart K t.
Proof.
  induction l as [|x l IH]; intros t C H; [reflexivity|]. cbn [each].
  destruct (H x t (or_introl eq_refl) C) as [M S]. destruct (f x t) as [t1 r]. cbn [fst snd] in *.
  destruct r as [u|e]; [|exact M]. rewrite <- M. apply IH; [apply (tclosed_skel t); [now symmetry|exact C]|]. intros y t' Hy. apply H. now right.
Qed.

Definition pside (x : bool) (p : option string) : Prop := match p with Some k => K k = x | None => True end.

Lemma pull_part : forall n k p t, tclosed t -> K k = true -> pside true p -> mirrors (pull n k p t) (pull n k p (tpart K t)).
Proof.
  induction n as [|n IH]; intros k p t C Hk Hp; [reflexivity|]. cbn [pull]. cbn [tpart tadj]. rewrite dpart_nbrs by exact Hk. fold (tpart K t).
  set (l := filter (fun k0 => negb (is_parent p k0)) (neighbours (tadj t) k)).
  assert (M : mirrors (each (fun k0 => pull n k0 (Some k)) l t) (each (fun k0 => pull n k0 (Some k)) l (tpart K t))).
  { apply each_part; [exact C|]. intros x t' Hx C'. split; [|apply skel_pull]. apply IH; [exact C'| |exact Hk].
    apply filter_In in Hx as [Hx _]. rewrite <- Hk. now apply C. }
  unfold mirrors in M. rewrite M. destruct (each _ l t) as [t1 [u|e]]; cbn [fst snd]; [|reflexivity].
  destruct p as [[|c s]|]; [reflexivity| |reflexivity]. now apply send_part.
Qed.

Lemma push_part : forall n k p t, tclosed t -> K k = true -> mirrors (push n k p t) (push n k p (tpart K t)).
Proof.
  induction n as [|n IH]; intros k p t C Hk; [reflexivity|]. cbn [push]. cbn [tpart tadj]. rewrite dpart_nbrs by exact Hk. fold (tpart K t).
  set (l := filter (fun k0 => negb (is_parent p k0)) (neighbours (tadj t) k)).
  apply each_part; [exact C|]. intros x t' Hx C'.
  assert (Kx : K x = true) by (apply filter_In in Hx as [Hx _]; rewrite <- Hk; now apply C).
  assert (M := send_part k x t' Hk Kx). unfold mirrors in M. rewrite M. assert (S := skel_send k x t').
  destruct (send k x t') as [t1 [u|e]]; cbn [fst snd] in *; [|split; [reflexivity|exact S]].
  split; [apply IH; [apply (tclosed_skel t'); [now symmetry|exact C']|exact Kx]|]. rewrite skel_push. exact S.
Qed.

Lemma pull_frame : forall n k p t, tclosed t -> K k = false -> pside false p -> tpart K (fst (pull n k p t)) = tpart K t.
Proof.
  induction n as [|n IH]; intros k p t C Hk Hp; [reflexivity|]. cbn [pull].
  set (l := filter (fun k0 => negb (is_parent p k0)) (neighbours (tadj t) k)).
  assert (M : tpart K (fst (each (fun k0 => pull n k0 (Some k)) l t)) = tpart K t).
  { apply each_frame; [exact C|]. intros x t' Hx C'. split; [|apply skel_pull]. apply IH; [exact C'| |exact Hk].
    apply filter_In in Hx as [Hx _]. rewrite <- Hk. now apply C. }
  destruct (each _ l t) as [t1 [u|e]]; cbn [fst snd] in *; [|exact M].
  destruct p as [[|c s]|]; [exact M| |exact M]. rewrite send_frame; [exact M|exact Hk|exact Hp].
Qed.

Lemma push_frame : forall n k p t, tclosed t -> K k = false -> tpart K (fst (push n k p t)) = tpart K t.
Proof.
  induction n as [|n IH]; intros k p t C Hk; [reflexivity|]. cbn [push].
  apply each_frame; [exact C|]. intros x t' Hx C'.
  assert (Kx : K x = false) by (apply filter_In in Hx as [Hx _]; rewrite <- Hk; now apply C).
  assert (M := send_frame k x t' Hk Kx). assert (S := skel_send k x t').
  destruct (send k x t') as [t1 [u|e]]; cbn [fst snd] in *; [|split; [exact M|exact S]].
  split; [rewrite <- M; apply IH; [apply (tclosed_skel t'); [now symmetry|exact C']|exact Kx]|]. rewrite skel_push. exact S.
Qed.
End Part.

(** ** More fuel changes nothing *)
Section Fuel.
Context {SO : SetOrder}.

Lemma each_more {A} (f g : A -> jtree -> jtree * res unit) l : (forall x t, In x l -> snd (f x t) <> Err RecursionError -> g x t = f x t) ->
  forall t, snd (each f l t) <> Err RecursionError -> each g l t = each f l t.
Proof.
  induction l as [|x l IH]; intros H t N; [reflexivity|]. cbn [each] in *.
  assert (E : g x t = f x t). { apply H; [now left|]. intros X. apply N. destruct (f x t) as [t1 r]. cbn in X. subst r. reflexivity. }
  rewrite E. destruct (f x t) as [t1 [u|e]]; [|reflexivity]. apply IH; [intros; apply H; [now right|assumption]|exact N].
Qed.

Lemma pull_more : forall n m k p t, n <= m -> snd (pull n k p t) <> Err RecursionError -> pull m k p t = pull n k p t.
Proof.
  induction n as [|n IH]; intros m k p t L N; [cbn in N; congruence|]. destruct m as [|m]; [lia|]. cbn [pull] in *.
  set (l := filter (fun k0 => negb (is_parent p k0)) (neighbours (tadj t) k)) in *.
  assert (E : each (fun k0 => pull m k0 (Some k)) l t = each (fun k0 => pull n k0 (Some k)) l t).
  { apply each_more; [intros x t' _; apply IH; lia|]. intros X. apply N. destruct (each _ l t) as [t1 r]. cbn in X. subst r. reflexivity. }
  rewrite E. reflexivity.
Qed.

Lemma push_more : forall n m k p t, n <= m -> snd (push n k p t) <> Err RecursionError -> push m k p t = push n k p t.
Proof.
  induction n as [|n IH]; intros m k p t L N; [cbn in N; congruence|]. destruct m as [|m]; [lia|]. cbn [push] in *.
  apply each_more; [|exact N]. intros x t' _ N'. destruct (send k x t') as [t1 [u|e]]; [|reflexivity]. apply IH; [lia|exact N'].
Qed.
End Fuel.
