(** Property C87: saving what was loaded. *)
From Coq Require Import Ascii.
From Verif Require Import Base BaseFacts NDArray Factor Exact Spec Node Network NetSpec NetInv NetTop NetView NetChecks Dynamic DynChecks
  Xml IO IOText IOSpec IOProof IOMore ParseSpec IOParse Files FilesSpec FilesProof PathProof IOChecks Fractions ExampleNets Instances PropDynamic
  SaveSpec SaveProof PropIO.

(** Written, read and written again, with any flags and in any heap: the second document is the
    one that the network itself would have given, without properties if any of the three calls
    ignored them. *)
Theorem C87_document {FT : FloatText} (ign_w ign_r : bool) w w0 :
  reached w -> reached w0 -> printable_net (negb ign_w) w -> filled w -> named_net w -> float_tables w ->
  exists t h1 g', write_tree ign_w w = Ok t /\ parse_tree ign_r (whp w0) (reread 0 t) = (whp w0 ++ h1, Ok g') /\
    forall ign, write_tree ign (mkW (whp w0 ++ h1) g') = write_tree (ign_w || ign_r || ign) w.
Proof. intros R R0. exact (save_again ign_w ign_r w (whp w0) (reached_inv w R) (reached_heap w0 R0)). Qed.

(** The same for files: nothing on the disk changes. *)
Theorem C87_file {FT : FloatText} (ign_w ign_r : bool) w w0 p f f' :
  reached w -> reached w0 -> filled w -> named_net w -> float_tables w ->
  xmlbif_write ign_w w p f = (f', Ok tt) -> ign_r = false \/ ign_w = true ->
  exists h1 g', xmlbif_parse ign_r (whp w0) p f' = (whp w0 ++ h1, Ok g') /\
    xmlbif_write ign_w (mkW (whp w0 ++ h1) g') p f' = (f', Ok tt).
Proof. intros R R0. exact (file_again ign_w ign_r w (whp w0) p f f' (reached_inv w R) (reached_heap w0 R0)). Qed.

(** Empty names and integers are changed by the first reading only: what is read back is saved
    and loaded without further change. *)
Theorem C87_second {FT : FloatText} (ign_w ign_r : bool) w w0 :
  reached w -> reached w0 -> printable_net (negb ign_w) w -> filled w ->
  exists t h1 g', write_tree ign_w w = Ok t /\ parse_tree ign_r (whp w0) (reread 0 t) = (whp w0 ++ h1, Ok g') /\
    forall ign ign_r' w2, reached w2 -> exists t' h2 g2, write_tree ign (mkW (whp w0 ++ h1) g') = Ok t' /\
      parse_tree ign_r' (whp w2) (reread 0 t') = (whp w2 ++ h2, Ok g2) /\
      forall ign', write_tree ign' (mkW (whp w2 ++ h2) g2) = write_tree (ign || ign_r' || ign') (mkW (whp w0 ++ h1) g').
Proof.
  intros R R0 P F. destruct (save_third ign_w ign_r w (whp w0) (reached_inv w R) (reached_heap w0 R0) P F) as (t & h1 & g' & A & B & D).
  exists t, h1, g'. split; [exact A|]. split; [exact B|]. intros ign ign_r' w2 R2. exact (D ign ign_r' (whp w2) (reached_heap w2 R2)).
Qed.

(** A document from elsewhere that was read can be written, and the new document is read: as the
    same network, with the same answers to all queries. *)
Theorem C87_load_save {FT : FloatText} (ignore : bool) w0 root h' g :
  reached w0 -> orderly root -> proper root -> parse_tree ignore (whp w0) root = (h', Ok g) ->
  forall (ign_w ign_r : bool) w2, reached w2 -> exists t h1 g1, write_tree ign_w (mkW h' g) = Ok t /\
    parse_tree ign_r (whp w2) (reread 0 t) = (whp w2 ++ h1, Ok g1) /\
    reloaded (negb (ign_w || ign_r)) (mkW h' g) (mkW (whp w2 ++ h1) g1) /\ bname g1 = bname g /\
    (forall ev q, posterior (view (mkW (whp w2 ++ h1) g1)) ev q = posterior (view (mkW h' g)) ev q) /\
    (forall ign, write_tree ign (mkW (whp w2 ++ h1) g1) = write_tree (ign_w || ign_r || ign) (mkW h' g)).
Proof.
  intros R0 O PR P ign_w ign_r w2 R2.
  destruct (load_save ignore (whp w0) root h' g (reached_heap w0 R0) O PR P ign_w ign_r (whp w2) (reached_heap w2 R2)) as (t & h1 & g1 & A & B & D & E & I & I1 & F).
  exists t, h1, g1. split; [exact A|]. split; [exact B|]. split; [exact D|]. split; [exact E|]. split; [|exact F].
  intros ev q. unfold posterior. rewrite !(reloaded_mass _ _ _ I I1 D). reflexivity.
Qed.

(** Dynamic networks: all three files stay as they are. *)
Theorem C87_dynamic {FT : FloatText} (ign_w ign_r : bool) h d f path name l w0 filename :
  good_fs f -> directory f path l -> ~ In slash (list_ascii_of_string name) -> free_targets f l name ->
  inv (mkW h (db0 d)) -> printable_net (negb ign_w) (mkW h (db0 d)) -> filled (mkW h (db0 d)) -> named_net (mkW h (db0 d)) -> float_tables (mkW h (db0 d)) ->
  inv (mkW h (dtwo d)) -> printable_net (negb ign_w) (mkW h (dtwo d)) -> filled (mkW h (dtwo d)) -> named_net (mkW h (dtwo d)) -> float_tables (mkW h (dtwo d)) ->
  lawful d -> reached w0 -> ign_r = false \/ ign_w = true ->
  exists f', dbn_write ign_w h d path name f = (f', Ok tt) /\
    (resolve f' filename = Some (l ++ [(name ++ ".conf")%string]) ->
     exists h1 d', dbn_parse ign_r (whp w0) filename f' = (whp w0 ++ h1, Ok d') /\
       dbn_write ign_w (whp w0 ++ h1) d' path name f' = (f', Ok tt)).
Proof.
  intros G D N FR I0 P0 F0 N0 T0 I2 P2 F2 N2 T2 LW R K.
  exact (dbn_again ign_w ign_r h d f path name l (whp w0) filename G D N FR I0 P0 F0 N0 T0 I2 P2 F2 N2 T2 LW (reached_heap w0 R) K).
Qed.

(** ** Examples *)
Definition float_tablesb (w : world) : bool := each_node (fun _ n => match ncpd n with TArr false _ => true | _ => false end) w.
Lemma float_tablesb_ok w : float_tablesb w = true -> float_tables w.
Proof.
  intros B v i n H. apply (each_node_ok _ w B) in H. destruct (ncpd n) as [q|[] a]; try discriminate H. exists a. reflexivity.
Qed.

Definition properb (root : xml) : bool :=
  forallb (fun e => legal_opt (xtext e) && opt_full (xtext e)) (preorder root) &&
  forallb (fun e => match find_all "OUTCOME" e with [] => false | _ => true end) (iter_tag "VARIABLE" root).
Lemma properb_ok root : properb root = true -> proper root.
Proof.
  unfold properb. rewrite andb_true_iff, !forallb_forall. intros [A B]. split.
  - intros e He. specialize (A e He). rewrite andb_true_iff in A. destruct A as [A1 A2]. split; [apply legal_opt_ok, A1|].
    intros E. rewrite E in A2. discriminate.
  - intros e He E. specialize (B e He). rewrite E in B. discriminate.
Qed.

(** Written, read and written again. *)
Definition twice_saved (FT : FloatText) (ign_w ign_r ign : bool) (w : world) : res xml :=
  match write_tree (FT := FT) ign_w w with
  | Ok t => match parse_tree (FT := FT) ign_r [] (reread 0 t) with
            | (h, Ok g) => write_tree (FT := FT) ign (mkW h g)
            | (_, Err e) => Err e
            end
  | Err e => Err e
  end.

Example C87_example : reached lab /\ (forall b, printable_net b lab) /\ filled lab /\ named_net lab /\ float_tables lab /\
  twice_saved fractions false false false lab = write_tree (FT := fractions) false lab /\
  twice_saved fractions false true false lab = write_tree (FT := fractions) true lab /\
  write_tree (FT := fractions) false lab <> write_tree (FT := fractions) true lab /\
  exists f', xmlbif_write (FT := fractions) false lab "nets/lab.xbif" disk = (f', Ok tt) /\ ffiles f' <> ffiles disk.
Proof.
  split; [exact lab_reached|]. split; [exact lab_printable|]. split; [exact lab_filled|]. split; [exact lab_named|].
  split; [apply float_tablesb_ok; vm_compute; reflexivity|]. split; [vm_compute; reflexivity|]. split; [vm_compute; reflexivity|].
  split; [vm_compute; discriminate|]. eexists. split; [vm_compute; reflexivity|]. vm_compute. discriminate.
Qed.

(** [weather_doc] is read into a network that is written as another document: every
    definition follows its variable, and the missing one is there, with zeros. *)
Example C87_load_example : orderly weather_doc /\ proper weather_doc /\
  match parse_tree (FT := fractions) true [] weather_doc with
  | (h, Ok g) => match write_tree (FT := fractions) false (mkW h g) with
                 | Ok t => match parse_tree (FT := fractions) false [] (reread 0 t) with
                           | (h1, Ok g1) => digest (mkW h1 g1) = digest (mkW h g) /\ bname g1 = Some "weather"%string /\
                                            write_tree (FT := fractions) false (mkW h1 g1) = Ok t
                           | _ => False
                           end /\ t <> weather_doc /\ reread 0 t <> weather_doc
                 | Err _ => False
                 end
  | _ => False
  end.
Proof.
  split; [exact weather_orderly|]. split; [apply properb_ok; vm_compute; reflexivity|]. vm_compute. repeat split; discriminate.
Qed.

(** The networks of [rain_d], with names and a property. *)
Definition tagged (n : bn) (name : string) : world := run start (script n ++ [Label (Some name) [Some "daily"%string]]).
Definition daily := side_by_side (tagged rain0 "first") (tagged rain1 "next") [("old", "rain")].
Lemma tagged_reached : reached (tagged rain0 "first") /\ reached (tagged rain1 "next").
Proof. split; reach. Qed.
Example C87_dynamic_example : let h := fst daily in let d := snd daily in
  good_fs disk /\ directory disk "nets/../nets/" nets /\ ~ In slash (list_ascii_of_string "weather") /\ free_targets disk nets "weather" /\
  (inv (mkW h (db0 d)) /\ inv (mkW h (dtwo d))) /\ (forall b, printable_net b (mkW h (db0 d)) /\ printable_net b (mkW h (dtwo d))) /\
  (filled (mkW h (db0 d)) /\ filled (mkW h (dtwo d))) /\ (named_net (mkW h (db0 d)) /\ named_net (mkW h (dtwo d))) /\
  (float_tables (mkW h (db0 d)) /\ float_tables (mkW h (dtwo d))) /\ lawful d /\
  match dbn_write (FT := fractions) false h d "nets/../nets/" "weather" disk with
  | (f', Ok _) => resolve f' "nets/weather.conf" = Some (nets ++ ["weather.conf"]) /\ length (ffiles f') = 4 /\
      match dbn_parse (FT := fractions) false [] "nets/weather.conf" f' with
      | (h1, Ok d1) => dbn_write (FT := fractions) false h1 d1 "nets/../nets/" "weather" f' = (f', Ok tt)
      | _ => False
      end
  | (_, Err _) => False
  end.
Proof.
  cbv zeta. split; [exact disk_good|]. split; [exact nets_directory|]. split; [cbn; intuition discriminate|]. split; [vm_compute; repeat constructor|].
  split; [apply side_inv; apply reached_inv; apply tagged_reached|].
  split; [intros b; split; apply printable_netb_ok; vm_compute; reflexivity|].
  split; [split; apply filledb_ok; vm_compute; reflexivity|].
  split; [split; apply namedb_ok; vm_compute; reflexivity|].
  split; [split; apply float_tablesb_ok; vm_compute; reflexivity|].
  split. { intros v p [E|[]]. injection E as <- <-. vm_compute. repeat split; auto 10. }
  vm_compute. repeat split.
Qed.

(** ** What changes *)

(** With the default flags (write False, parse True) the second saving loses the properties. *)
Theorem C87_default_flags_refuted : reached lab /\
  twice_saved fractions false true false lab <> write_tree (FT := fractions) false lab.
Proof. split; [exact lab_reached|]. vm_compute. discriminate. Qed.

(** The default name of a network is empty; the file changes the first time it is saved again. *)
Theorem C87_default_name_refuted : exists w, reached w /\ filled w /\ float_tables w /\ (forall b, printable_net b w) /\
  twice_saved fractions false false false w <> write_tree (FT := fractions) false w.
Proof.
  exists (run start (one "a" tf)). split; [reach|]. split; [apply filledb_ok; vm_compute; reflexivity|].
  split; [apply float_tablesb_ok; vm_compute; reflexivity|]. split; [intros b; apply printable_netb_ok; vm_compute; reflexivity|].
  vm_compute. discriminate.
Qed.

(** Integers are printed without a fraction; they are floats when they come back. *)
Definition typed_text (int : bool) (q : Qc) : string :=
  if int && Pos.eqb (Qden q) 1 then int_text (Qnum q) else frac_text false q.
Lemma typed_read int q : frac_read (typed_text int q) = Some q.
Proof.
  unfold typed_text. destruct (int && Pos.eqb (Qden q) 1) eqn:E; [|apply frac_read_text].
  apply andb_true_iff in E as [_ E]. apply Pos.eqb_eq in E. unfold frac_read. rewrite split_at_free by apply int_text_free.
  rewrite int_read_text. f_equal. destruct q as [[n d] C]. cbn [this Qnum Qden] in *. subst d. apply Qc_is_canon. exact (QArith.Qreduction.Qred_correct (n # 1)).
Qed.
Definition typed : FloatText.
Proof.
  refine {| fprint := typed_text; fread := frac_read; fread_fprint := typed_read |}.
  - intros int q E. unfold typed_text in E. destruct (int && Pos.eqb (Qden q) 1); [exact (int_text_filled _ E)|exact (fprint_filled (FloatText := fractions) false q E)].
  - intros int q. unfold typed_text. destruct (int && Pos.eqb (Qden q) 1); [|exact (fprint_plain (FloatText := fractions) false q)].
    eapply Forall_impl; [|apply int_chars]. intros a [->|H]; [vm_compute|]; lia.
Defined.
Theorem C87_integers_refuted : exists w, reached w /\ filled w /\ named_net w /\ (forall b, printable_net b w) /\
  twice_saved typed false false false w <> write_tree (FT := typed) false w.
Proof.
  exists (run start (one "a" tf ++ [SetCpd 0 true (mkArr [2] [0%Qc; 1%Qc]); Label (Some "n"%string) []])). split; [reach|].
  split; [apply filledb_ok; vm_compute; reflexivity|]. split; [apply namedb_ok; vm_compute; reflexivity|].
  split; [intros b; apply printable_netb_ok; vm_compute; reflexivity|]. vm_compute. discriminate.
Qed.

(** A document in which a variable has no outcomes is read, and written, but then cannot be
    read. *)
Theorem C87_no_outcomes_refuted : exists root h g, orderly root /\ parse_tree (FT := fractions) false [] root = (h, Ok g) /\
  round false false (mkW h g) = Err ValueError.
Proof.
  exists (El "BIF" [] None [El "NETWORK" [] None [lf "NAME" "n"; var "a" []]]). do 2 eexists.
  split. { constructor; [vm_compute; constructor|]. intros e []. }
  split; vm_compute; reflexivity.
Qed.

Print Assumptions C87_document.
Print Assumptions C87_file.
Print Assumptions C87_second.
Print Assumptions C87_load_save.
Print Assumptions C87_dynamic.
Print Assumptions C87_default_flags_refuted.
Print Assumptions C87_default_name_refuted.
Print Assumptions C87_integers_refuted.
Print Assumptions C87_no_outcomes_refuted.
