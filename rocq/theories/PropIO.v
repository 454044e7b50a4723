(** Properties C43, C44 and C48: files. *)
From Coq Require Import Ascii.
From Verif Require Import Base BaseFacts NDArray Factor Exact Spec Node Network NetSpec NetInv NetTop NetView NetChecks Dynamic DynChecks
  Xml IO IOText IOSpec IOProof IOMore ParseSpec IOParse Files FilesSpec FilesProof PathProof BlankProof IOChecks Fractions ExampleNets Instances PropDynamic.

Lemma reached_heap w : reached w -> sound_heap (whp w).
Proof. intros R. exact (iv_s w (reached_inv w R)). Qed.

(** Example network: [net] with a name and properties. *)
Definition lab_ops : list op := script net ++ [Label (Some "lab"%string) [Some "by hand"%string; None]; LabelNode 1 [Some "position = (1, 2)"%string]].
Definition lab : world := run start lab_ops.
Lemma lab_reached : reached lab.
Proof. apply reached_run; [apply reached_start|]. apply all_withinb_ok. vm_compute. reflexivity. Qed.
Lemma lab_printable b : printable_net b lab.
Proof. apply printable_netb_ok. vm_compute. reflexivity. Qed.
Lemma lab_filled : filled lab.
Proof. apply filledb_ok. vm_compute. reflexivity. Qed.
Lemma lab_named : named_net lab.
Proof. apply namedb_ok. vm_compute. reflexivity. Qed.

(** ** C43.  Writing a network and reading it back, for both values of both
    flags, in any heap.  [reloaded] says what is the same.  Missing from the
    property as stated: networks with texts that XML cannot hold (write fails, see
    below), nodes without values, empty names and values, and what [back] and the
    flags lose; the refutations show that these are really lost. *)
Theorem C43_round_trip_partial {FT : FloatText} (ign_w ign_r : bool) w w0 :
  reached w -> reached w0 -> printable_net (negb ign_w) w -> filled w ->
  exists t h1 g', write_tree ign_w w = Ok t /\ parse_tree ign_r (whp w0) (reread 0 t) = (whp w0 ++ h1, Ok g') /\
    reloaded (negb (ign_w || ign_r)) w (mkW (whp w0 ++ h1) g').
Proof.
  intros R R0 P F. destruct (round_trip ign_w ign_r w (whp w0) (reached_inv w R) (reached_heap w0 R0) P F) as (t & h1 & g' & A & B & _ & D).
  exists t, h1, g'. auto.
Qed.

Theorem C43_exact_partial {FT : FloatText} w w0 :
  reached w -> reached w0 -> printable_net true w -> filled w -> named_net w ->
  exists t h1 g', write_tree false w = Ok t /\ parse_tree false (whp w0) (reread 0 t) = (whp w0 ++ h1, Ok g') /\
    reloaded true w (mkW (whp w0 ++ h1) g') /\ bname g' = bname (wnet w) /\ bmeta g' = bmeta (wnet w) /\
    forall v i n, holds w v i n -> exists i' n', holds (mkW (whp w0 ++ h1) g') v i' n' /\ nmeta n' = nmeta n.
Proof.
  intros R R0 P F N. destruct (C43_round_trip_partial false false w w0 R R0 P F) as (t & h1 & g' & A & B & D).
  exists t, h1, g'. destruct (reloaded_exact w _ N D) as (X & Y & Z).
  exact (conj A (conj B (conj D (conj X (conj Y Z))))).
Qed.

(** Every query has the same answer on the network that was read. *)
Theorem C43_queries_partial {FT : FloatText} (ign_w ign_r : bool) w w0 :
  reached w -> reached w0 -> printable_net (negb ign_w) w -> filled w ->
  exists t h1 g', write_tree ign_w w = Ok t /\ parse_tree ign_r (whp w0) (reread 0 t) = (whp w0 ++ h1, Ok g') /\
    forall ev q, posterior (view (mkW (whp w0 ++ h1) g')) ev q = posterior (view w) ev q.
Proof.
  intros R R0 P F. destruct (round_trip ign_w ign_r w (whp w0) (reached_inv w R) (reached_heap w0 R0) P F) as (t & h1 & g' & A & B & I & D).
  exists t, h1, g'. split; [exact A|]. split; [exact B|]. intros ev q. unfold posterior.
  rewrite !(reloaded_mass _ w _ (reached_inv w R) I D). reflexivity.
Qed.

(** Text that XML cannot hold: the call fails, and no file is written. *)
Theorem C43_write_fails {FT : FloatText} ign w filename f : reached w -> ~ printable_net (negb ign) w ->
  xmlbif_write ign w filename f = (f, Err ValueError).
Proof. intros R N. unfold xmlbif_write. rewrite (write_tree_err ign w (reached_inv w R) N). reflexivity. Qed.

(** What is in a network, with numbers as fractions. *)
Definition digest (w : world) := map (fun p => let n := deref (whp w) (snd p) in
  (fst p, nvalues n, nporder n, shape (tarr (ncpd n)), map this (data (tarr (ncpd n))), nmeta n)) (ggraph (wnet w)).
Example C43_example : reached lab /\ printable_net true lab /\ filled lab /\ named_net lab /\
  match write_tree (FT := fractions) false lab with
  | Ok t => match parse_tree (FT := fractions) false (whp lab) (reread 0 t) with
            | (h, Ok g) => digest (mkW h g) = digest lab /\ bname g = Some "lab"%string /\ bmeta g = [Some "by hand"%string; None]
            | _ => False
            end
  | Err _ => False
  end.
Proof.
  split; [exact lab_reached|]. split; [exact (lab_printable true)|]. split; [exact lab_filled|]. split; [exact lab_named|].
  vm_compute. repeat split.
Qed.

(** Losses.  [round w ign_w ign_r]: the network read back. *)
Definition round (ign_w ign_r : bool) (w : world) : res (heap * Network.net) :=
  match write_tree (FT := fractions) ign_w w with
  | Ok t => match parse_tree (FT := fractions) ign_r [] (reread 0 t) with (h, Ok g) => Ok (h, g) | (_, Err e) => Err e end
  | Err e => Err e
  end.
Definition one (name : string) (values : list string) : list op := [NewNode KDiscrete name values; AddNode 0].

Ltac reach := apply reached_run; [apply reached_start|apply all_withinb_ok; vm_compute; reflexivity].

(** The default name of a network is the empty string; it comes back as None. *)
Theorem C43_default_name_refuted : exists w h g, reached w /\ round false false w = Ok (h, g) /\ bname (wnet w) = Some ""%string /\ bname g = None.
Proof. exists (run start (one "a" tf)). do 2 eexists. split; [reach|]. vm_compute. repeat split. Qed.

(** With the default flags (write False, parse True) the properties are lost. *)
Theorem C43_default_flags_refuted : exists h g, round false true lab = Ok (h, g) /\ bmeta (wnet lab) <> [] /\ bmeta g = [].
Proof. do 2 eexists. vm_compute. repeat split. discriminate. Qed.

(** A node without values is written but cannot be read. *)
Theorem C43_no_values_refuted : exists w, reached w /\ round false false w = Err ValueError.
Proof. exists (run start (one "a" [])). split; [reach|]. vm_compute. reflexivity. Qed.

(** An empty value comes back as None ([NoneText] where the model has no None). *)
Theorem C43_empty_value_refuted : exists w, reached w /\ round false false w = Err NoneText.
Proof. exists (run start (one "a" ["x"; ""])). split; [reach|]. vm_compute. reflexivity. Qed.

(** A control character makes write fail. *)
Theorem C43_control_character_refuted : exists w, reached w /\ round false false w = Err ValueError.
Proof. exists (run start (one (String "001"%char "") tf)). split; [reach|]. vm_compute. reflexivity. Qed.

(** Tables of integers come back as floats. *)
Theorem C43_integer_table_refuted : exists w n h g n', reached w /\ holds w "a" 0 n /\ round false false w = Ok (h, g) /\
  holds (mkW h g) "a" 0 n' /\ ncpd n <> ncpd n'.
Proof.
  exists (run start (one "a" tf ++ [SetCpd 0 true (mkArr [2] [0%Qc; 1%Qc])])). do 4 eexists. split; [reach|].
  split; [split; vm_compute; reflexivity|]. split; [vm_compute; reflexivity|]. split; [split; vm_compute; reflexivity|]. vm_compute. discriminate.
Qed.

(** ** C48.  Documents in XMLBIF.  [read_from]: the network has the document's
    variables with their outcomes in the same order, the edges that the
    definitions give, and every table entry at the place that XMLBIF assigns to
    it.  [orderly]: no variable is defined twice, no GIVEN listed twice. *)
Theorem C48_reading_partial {FT : FloatText} ignore w0 root h' g :
  reached w0 -> orderly root -> parse_tree ignore (whp w0) root = (h', Ok g) ->
  exists rest vs ds, h' = whp w0 ++ rest /\ consistent (mkW h' g) /\ fitting (mkW h' g) /\ read_from ignore root (mkW h' g) vs ds.
Proof.
  intros R O P. destruct (parse_reads ignore (whp w0) root h' g (reached_heap w0 R) O P) as (rest & vs & ds & A & I & B).
  exists rest, vs, ds. split; [exact A|]. split; [apply I|]. split; [apply I|exact B].
Qed.

Theorem C48_writing_partial {FT : FloatText} ign w : reached w -> printable_net (negb ign) w -> filled w ->
  exists t vs ds, write_tree ign w = Ok t /\ orderly (reread 0 t) /\
    Forall2 declares (iter_tag "VARIABLE" (reread 0 t)) vs /\ Forall2 defines (iter_tag "DEFINITION" (reread 0 t)) ds /\
    map vd_name vs = dkeys (ggraph (wnet w)) /\ map df_for ds = dkeys (ggraph (wnet w)) /\
    (forall x, In x vs -> exists i n, holds w (vd_name x) i n /\ vd_values x = nvalues n /\
       vd_props x = if ign then [] else map back (nmeta n)) /\
    (forall x, In x ds -> exists i n, holds w (df_for x) i n /\ df_given x = rev (nporder n) /\ laid_out w n x).
Proof. intros R. exact (written_says ign w (reached_inv w R)). Qed.

(** A document from elsewhere: the definition of [wet] lists [rain] (two values)
    before [season] (three values). *)
Definition lf (tag text : string) : xml := El tag [] (Some text) [].
Definition var (name : string) (outcomes : list string) : xml := El "VARIABLE" [("TYPE", "nature")] None (lf "NAME" name :: map (lf "OUTCOME") outcomes).
Definition def (for_ : string) (given : list string) (table : string) : xml := El "DEFINITION" [] None (lf "FOR" for_ :: map (lf "GIVEN") given ++ [lf "TABLE" table]).
Definition weather_doc : xml := El "BIF" [("VERSION", "0.3")] None [El "NETWORK" [] None
  [lf "NAME" "weather"; var "rain" tf; var "season" xyz; var "wet" ["yes"; "no"];
   def "wet" ["rain"; "season"] " 1/10 9/10 2/10 8/10 3/10 7/10 4/10 6/10 5/10 5/10 6/10 4/10 ";
   def "season" [] "1/2 1/4 1/4"]].

Lemma weather_orderly : orderly weather_doc.
Proof.
  constructor.
  - vm_compute. repeat constructor; cbn; intros H; repeat (destruct H as [H|H]; [discriminate|]); exact H.
  - intros e He. vm_compute in He. destruct He as [<-|[<-|[]]]; vm_compute; repeat constructor; cbn; intros H; repeat (destruct H as [H|H]; [discriminate|]); exact H.
Qed.

(** rain = f (second), season = y (second), wet = yes: entry 1*3*2 + 1*2 + 0 = 8. *)
Example C48_example : orderly weather_doc /\
  match parse_tree (FT := fractions) true [] weather_doc with
  | (h, Ok g) => nporder (deref h 2) = ["season"; "rain"] /\ gedges g = [("season", "wet"); ("rain", "wet")] /\
                 aget (tarr (ncpd (deref h 2))) [0; 1; 1] = qq 5 10 /\ aget (tarr (ncpd (deref h 2))) [1; 2; 0] = qq 7 10 /\
                 tarr (ncpd (deref h 1)) = mkArr [3] [qq 1 2; qq 1 4; qq 1 4] /\ nvalid (deref h 0) = false
  | _ => False
  end.
Proof. split; [exact weather_orderly|]. vm_compute. repeat split; apply Qc_is_canon; reflexivity. Qed.

(** Documents outside [orderly] are read without complaint, but the result is not
    consistent. *)
Definition twice_doc : xml := El "BIF" [] None [El "NETWORK" [] None
  [lf "NAME" "n"; var "a" tf; var "b" tf; def "b" ["a"; "a"] "1 0 1 0 1 0 1 0"]].
Theorem C48_duplicate_given_refuted : exists root h g, parse_tree (FT := fractions) true [] root = (h, Ok g) /\ ~ consistent (mkW h g).
Proof.
  exists twice_doc. do 2 eexists. split; [vm_compute; reflexivity|]. intros C.
  assert (H := co_order _ C "b" 1 _ (conj eq_refl eq_refl)). vm_compute in H. inversion H as [|? ? N _]. apply N. left. reflexivity.
Qed.

(** A definition of the same variable again adds parents, but the entries are
    those of the last table. *)
Definition again_doc : xml := El "BIF" [] None [El "NETWORK" [] None
  [lf "NAME" "n"; var "a" tf; var "b" tf; def "b" ["a"] "1 0 1 0"; def "b" [] "1 0"]].
Theorem C48_second_definition_refuted : exists root h, parse_tree (FT := fractions) true [] root = (h, Err ValueError) /\
  map (find_all "GIVEN") (iter_tag "DEFINITION" root) = [[lf "GIVEN" "a"]; []].
Proof. exists again_doc. eexists. split; vm_compute; reflexivity. Qed.

(** Blanks before and after the numbers of a table do not matter; between them one space is asked for
    (below).  [solid]: texts without blanks. *)
Theorem C48_table_text {FT : FloatText} e pre ws post l : ws <> [] -> Forall solid ws ->
  Forall (fun a => In (nat_of_ascii a) [9; 10; 11; 12; 13; 28; 29; 30; 31; 32]) (list_ascii_of_string pre ++ list_ascii_of_string post) ->
  first_text "TABLE" e = Some (Some (pre ++ join_with " " ws ++ post)%string) ->
  (parse_table e = Ok l <-> map fread ws = map Some l).
Proof.
  intros N S B F. assert (H : forall a, In (nat_of_ascii a) [9; 10; 11; 12; 13; 28; 29; 30; 31; 32] -> is_space a = true).
  { intros a I. unfold is_space. cbv zeta. repeat (destruct I as [<-|I]; [reflexivity|]). destruct I. }
  apply Forall_app in B as [B1 B2]. apply (table_fields e pre ws post l N S); [| |exact F]; (eapply Forall_impl; [|eassumption]); exact H.
Qed.

Example C48_table_text_example : let pad := String "010"%char (String "009"%char "  ") in
  parse_table (FT := fractions) (def "b" ["a"] (pad ++ "1 0 1 0" ++ pad)) = Ok [1%Qc; 0%Qc; 1%Qc; 0%Qc] /\
  Forall (fun a => In (nat_of_ascii a) [9; 10; 11; 12; 13; 28; 29; 30; 31; 32]) (list_ascii_of_string pad).
Proof. cbv zeta. split; [vm_compute; reflexivity|]. cbn. repeat constructor; vm_compute; tauto. Qed.

(** XMLBIF allows any white space between the numbers of a table. *)
Definition newline : string := String "010"%char "".
Theorem C48_line_break_refuted : exists root h, orderly root /\ parse_tree (FT := fractions) true [] root = (h, Err ValueError) /\
  exists e, In e (iter_tag "TABLE" root) /\ xtext e = Some ("1" ++ newline ++ "0")%string.
Proof.
  exists (El "BIF" [] None [El "NETWORK" [] None [lf "NAME" "n"; var "a" tf; def "a" [] ("1" ++ newline ++ "0")]]). eexists.
  split. { constructor; [vm_compute; repeat constructor; intros []|]. intros e [<-|[]]. constructor. }
  split; [vm_compute; reflexivity|]. eexists. split; [left; reflexivity|reflexivity].
Qed.

(** ** C44.  Dynamic networks.  [f2]: the file system when the specification is
    read; the working directory may have changed, and [filename] may be any path
    to the specification.  Missing from the property as stated: paths of
    directories without a final slash and names with a slash (refuted below),
    and what C43 misses. *)
Theorem C44_round_trip_partial {FT : FloatText} ign_w h d f path name l :
  good_fs f -> directory f path l -> ~ In slash (list_ascii_of_string name) -> free_targets f l name ->
  inv (mkW h (db0 d)) -> printable_net (negb ign_w) (mkW h (db0 d)) -> filled (mkW h (db0 d)) ->
  inv (mkW h (dtwo d)) -> printable_net (negb ign_w) (mkW h (dtwo d)) -> filled (mkW h (dtwo d)) -> lawful d ->
  exists f', dbn_write ign_w h d path name f = (f', Ok tt) /\
    fdirs f' = fdirs f /\ fcwd f' = fcwd f /\
    (forall k, ~ In k (targets l name) -> file_get k (ffiles f') = file_get k (ffiles f)) /\
    resolve f' (path ++ name ++ ".conf") = Some (l ++ [(name ++ ".conf")%string]) /\
    forall f2 filename ign_r w0, good_fs f2 -> fdirs f2 = fdirs f' -> ffiles f2 = ffiles f' ->
      resolve f2 filename = Some (l ++ [(name ++ ".conf")%string]) -> reached w0 ->
      exists h1 d', dbn_parse ign_r (whp w0) filename f2 = (whp w0 ++ h1, Ok d') /\
        reloaded_dbn (negb (ign_w || ign_r)) h d (whp w0 ++ h1) d'.
Proof.
  intros G D N FR I0 P0 F0 I2 P2 F2 LW.
  destruct (dbn_round_trip ign_w h d f path name l G D N FR I0 P0 F0 I2 P2 F2 LW) as (f' & A1 & A2 & A3 & A4 & A5 & A6).
  exists f'. split; [exact A1|]. split; [exact A2|]. split; [exact A3|]. split; [exact A4|]. split; [exact A5|].
  intros f2 filename ign_r w0 G2 S1 S2 RS R. exact (A6 f2 filename ign_r (whp w0) G2 (conj S1 S2) RS (reached_heap w0 R)).
Qed.

Definition disk : fs := mkFs [["home"]; ["home"; "me"]; ["home"; "me"; "nets"]] [(["home"; "me"; "notes"], Conf "x" "y" [])] ["home"; "me"].
Lemma disk_good : good_fs disk.
Proof. apply good_fsb_ok. vm_compute. reflexivity. Qed.
Definition nets : loc := ["home"; "me"; "nets"].
Lemma nets_directory : directory disk "nets/../nets/" nets.
Proof. split; [right; exists "nets/../nets"%string; reflexivity|vm_compute; reflexivity]. Qed.
Lemma rain_inv : inv (mkW rain_h (db0 rain_d)) /\ inv (mkW rain_h (dtwo rain_d)).
Proof. apply side_inv; apply reached_inv, world_of_reached; vm_compute; reflexivity. Qed.
Lemma rain_writable b : printable_net b (mkW rain_h (db0 rain_d)) /\ filled (mkW rain_h (db0 rain_d)) /\
  printable_net b (mkW rain_h (dtwo rain_d)) /\ filled (mkW rain_h (dtwo rain_d)).
Proof. split; [|split; [|split]]; (apply printable_netb_ok || apply filledb_ok); vm_compute; reflexivity. Qed.
Lemma rain_lawful : lawful rain_d.
Proof. intros v p [E|[]]. injection E as <- <-. vm_compute. repeat split; auto 10. Qed.

Example C44_example : good_fs disk /\ directory disk "nets/../nets/" nets /\ ~ In slash (list_ascii_of_string "weather") /\
  free_targets disk nets "weather" /\ (inv (mkW rain_h (db0 rain_d)) /\ inv (mkW rain_h (dtwo rain_d))) /\
  (forall b, printable_net b (mkW rain_h (db0 rain_d)) /\ filled (mkW rain_h (db0 rain_d)) /\
             printable_net b (mkW rain_h (dtwo rain_d)) /\ filled (mkW rain_h (dtwo rain_d))) /\ lawful rain_d /\
  match dbn_write (FT := fractions) true rain_h rain_d "nets/../nets/" "weather" disk with
  | (f', Ok _) => match dbn_parse (FT := fractions) true rain_h "../me/nets/weather.conf" (mkFs (fdirs f') (ffiles f') nets) with
                  | (_, Err e) => e = FileNotFoundError
                  | (_, Ok _) => False
                  end /\
                  match dbn_parse (FT := fractions) true rain_h "../nets/weather.conf" (mkFs (fdirs f') (ffiles f') nets) with
                  | (h, Ok d) => digest (mkW h (db0 d)) = digest (mkW rain_h (db0 rain_d)) /\
                                 digest (mkW h (dtwo d)) = digest (mkW rain_h (dtwo rain_d)) /\ dtrans d = [("old", "rain")]
                  | (_, Err _) => False
                  end
  | (_, Err _) => False
  end.
Proof.
  split; [exact disk_good|]. split; [exact nets_directory|]. split; [cbn; intuition discriminate|].
  split; [vm_compute; repeat constructor|]. split; [exact rain_inv|]. split; [exact rain_writable|]. split; [exact rain_lawful|].
  vm_compute. repeat split.
Qed.

(** The documentation calls [path] the path to the folder; without a final slash
    the files get other names, in another directory. *)
Theorem C44_no_slash_refuted : exists f h d path l f', good_fs f /\ resolve f path = Some l /\ is_dir f l = true /\
  dbn_write (FT := fractions) true h d path "weather" f = (f', Ok tt) /\
  file_get (l ++ ["weather.conf"]) (ffiles f') = None /\
  file_get ["home"; "me"; "netsweather.conf"] (ffiles f') <> None /\
  snd (dbn_parse (FT := fractions) true h "netsweather.conf" f') = Err FileNotFoundError.
Proof.
  exists disk, rain_h, rain_d, "nets"%string, nets. eexists. split; [exact disk_good|]. split; [vm_compute; reflexivity|].
  split; [vm_compute; reflexivity|]. split; [vm_compute; reflexivity|]. split; [vm_compute; reflexivity|]. split; [vm_compute; discriminate|vm_compute; reflexivity].
Qed.

(** A name with a slash is written, but the specification that is written names
    files in another directory. *)
Theorem C44_slash_refuted : exists f h d name f', good_fs f /\ dbn_write (FT := fractions) true h d "" name f = (f', Ok tt) /\
  snd (dbn_parse (FT := fractions) true h (name ++ ".conf") f') = Err FileNotFoundError.
Proof.
  exists disk, rain_h, rain_d, "nets/weather"%string. eexists. split; [exact disk_good|]. split; vm_compute; reflexivity.
Qed.

(** If a network cannot be written, the file of the other one may be left. *)
Definition bad_two : world := run start [NewNode KDiscrete "a" tf; AddNode 0; NewNode KDiscrete (String "001"%char "") tf; AddNode 1].
Theorem C44_half_written_refuted : exists f h d f', good_fs f /\ dbn_write (FT := fractions) true h d "nets/" "weather" f = (f', Err ValueError) /\
  ffiles f' <> ffiles f.
Proof.
  exists disk, (fst (side_by_side (world_of rain0) bad_two [])), (snd (side_by_side (world_of rain0) bad_two [])). eexists.
  split; [exact disk_good|]. split; [vm_compute; reflexivity|]. vm_compute. discriminate.
Qed.

Print Assumptions C43_round_trip_partial.
Print Assumptions C43_exact_partial.
Print Assumptions C43_queries_partial.
Print Assumptions C43_write_fails.
Print Assumptions C43_default_name_refuted.
Print Assumptions C43_default_flags_refuted.
Print Assumptions C43_no_values_refuted.
Print Assumptions C43_empty_value_refuted.
Print Assumptions C43_control_character_refuted.
Print Assumptions C43_integer_table_refuted.
Print Assumptions C48_reading_partial.
Print Assumptions C48_writing_partial.
Print Assumptions C48_duplicate_given_refuted.
Print Assumptions C48_second_definition_refuted.
Print Assumptions C48_line_break_refuted.
Print Assumptions C48_table_text.
(** The paths in a specification are joined and normalised (os.path.abspath, io.py:190).  Where all directories
    exist and none is a link, the normal form leads to the same place, and nothing is left to
    simplify in it. *)
Theorem C44_paths p at_ : place at_ (normpath p) = place at_ p /\ isabs (normpath p) = isabs p /\ normal (normpath p).
Proof. exact (normpath_same p at_). Qed.

Example C44_paths_example : normpath "a/./../../b//c/" = "../b/c"%string /\ normpath "/../x" = "/x"%string /\ normpath "" = "."%string /\ normpath "//a/.." = "//"%string /\
  place ["home"; "me"] "a/./../../b//c/" = ["home"; "b"; "c"].
Proof. repeat split; vm_compute; reflexivity. Qed.

Print Assumptions C44_paths.
Print Assumptions C44_round_trip_partial.
Print Assumptions C44_no_slash_refuted.
Print Assumptions C44_slash_refuted.
Print Assumptions C44_half_written_refuted.
