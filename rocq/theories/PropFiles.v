(** C71.  Which exception a faulty file raises, and when writing fails. *)
From Coq Require Import Ascii.
From Verif Require Import Base BaseFacts NDArray Node Network NetSpec NetInv NetTop Dynamic Xml IO IOSpec IOProof ParseSpec IOParse Files FilesSpec IOChecks
  Fractions ExampleNets PropDynamic PropIO DocSpec DocProof DocProof2 DocProof3.

(** ** Reading a document.  [document_fault] (DocSpec.v) lists what can be wrong, in the order of
    reading; a document that defines no variable twice raises exactly for its first fault. *)
Theorem C71_document {FT : FloatText} ignore w root e : reached w -> orderly root ->
  ((exists h', parse_tree ignore (whp w) root = (h', Err e)) <-> document_fault root e).
Proof. intros R. exact (document_raises ignore (whp w) root e (reached_heap w R)). Qed.

(** ** Reading files. *)
Theorem C71_network_file {FT : FloatText} ignore w p f e : reached w -> orderly_file f p ->
  ((exists h', xmlbif_parse ignore (whp w) p f = (h', Err e)) <-> xmlbif_fault f p e).
Proof. intros R. exact (xmlbif_raises ignore (whp w) p f e (reached_heap w R)). Qed.

Theorem C71_specification {FT : FloatText} ignore w p f e : reached w -> orderly_spec f p ->
  ((exists h', dbn_parse ignore (whp w) p f = (h', Err e)) <-> spec_fault f p e).
Proof. intros R. exact (spec_raises ignore (whp w) p f e (reached_heap w R)). Qed.

(** ** Writing.  The first condition that does not hold gives the exception.  Nothing is written then by
    XMLBIFParser.write; of DBNSpec.write see C44_half_written_refuted. *)
Theorem C71_write_network {FT : FloatText} ignore w p f : reached w ->
  (forall e, snd (xmlbif_write ignore w p f) = Err e <-> first_broken (xmlbif_conditions ignore w p f) e) /\
  (snd (xmlbif_write ignore w p f) <> Ok tt -> fst (xmlbif_write ignore w p f) = f).
Proof. intros R. exact (xmlbif_write_raises ignore w p f (reached_inv w R)). Qed.

Theorem C71_write_specification {FT : FloatText} ignore h d path name f e : inv (mkW h (db0 d)) -> inv (mkW h (dtwo d)) ->
  (snd (dbn_write ignore h d path name f) = Err e <-> first_broken (spec_conditions ignore h d path name f) e).
Proof. exact (dbn_write_raises ignore h d path name f e). Qed.

(** ** Examples *)
Definition faulty (l : list xml) : xml := El "BIF" [] None [El "NETWORK" [] None ([lf "NAME" "n"; var "a" tf; var "b" xyz] ++ l)].
Definition faults : list (xml * exc) :=
  [(El "BIF" [] None [], AttributeError);                                    (* no name *)
   (faulty [El "VARIABLE" [] None []], AttributeError);
   (faulty [var "a" tf], ValueError);                                         (* a is there already *)
   (faulty [El "DEFINITION" [] None []], AttributeError);
   (faulty [def "c" [] "1 0"], PlainException);
   (faulty [def "a" ["c"; "b"] "1 0"], PlainException);
   (faulty [El "DEFINITION" [] None [lf "FOR" "a"]], AttributeError);         (* no table *)
   (faulty [def "a" ["b"] "1 0 1 0 1"], ValueError);                          (* five numbers for six entries *)
   (faulty [def "a" [] "1  0"], ValueError);                                  (* two blanks *)
   (faulty [def "b" [] "1 0 0"; def "a" ["a"] "1 0 0"], ValueError)].

Ltac nodup := repeat constructor; cbn; intros H; repeat (destruct H as [H|H]; [discriminate|]); exact H.
Lemma faults_orderly : Forall (fun x => orderly (fst x)) faults.
Proof.
  repeat (apply Forall_cons; [|]); [..|apply Forall_nil];
    (constructor; [vm_compute; nodup|intros e He; vm_compute in He; repeat (destruct He as [<-|He]; [vm_compute; nodup|]); destruct He]).
Qed.

Example C71_document_example : reached start /\ Forall (fun x => orderly (fst x) /\ document_fault (FT := fractions) (fst x) (snd x)) faults /\
  forall e, ~ document_fault (FT := fractions) weather_doc e.
Proof.
  split; [apply reached_start|]. assert (O := faults_orderly). split.
  - repeat (apply Forall_cons_iff in O; destruct O as [? O]; apply Forall_cons; [split; [assumption|]|]); [..|apply Forall_nil];
      (apply (document_raises (FT := fractions) true []); [intros [|] ? X; discriminate|assumption|]; eexists; vm_compute; reflexivity).
  - intros e X. apply (document_raises (FT := fractions) true []) in X; [|intros [|] ? Y; discriminate|exact weather_orderly].
    destruct X as (h & X). vm_compute in X. discriminate.
Qed.

(** A directory of networks and specifications. *)
Definition shelf : fs := mkFs [["home"]]
  [(["home"; "weather.xbif"], Doc weather_doc); (["home"; "bad.xbif"], Doc (faulty [def "c" [] "1 0"]));
   (["home"; "one.conf"], Conf "weather.xbif" "weather.xbif" [("rain", "rain"); ("rain", "snow")]);
   (["home"; "two.conf"], Conf "weather.xbif" "bad.xbif" []); (["home"; "three.conf"], Conf "weather.xbif" "/home/none.xbif" []);
   (["home"; "four.conf"], Conf "weather.xbif" "weather.xbif" [("rain", "rain")])] ["home"].

Lemma shelf_orderly p : orderly_file shelf p.
Proof.
  intros t (l & _ & _ & pre & post & E & _). assert (I : In (l, Doc t) (ffiles shelf)) by (rewrite E; apply in_or_app; right; left; reflexivity).
  cbn [shelf ffiles] in I. destruct I as [I|[I|[I|[I|[I|[I|[]]]]]]]; try discriminate; injection I as <- <-;
    (constructor; [vm_compute; nodup|intros e He; vm_compute in He; repeat (destruct He as [<-|He]; [vm_compute; nodup|]); destruct He]).
Qed.

Example C71_files_example : (forall p, orderly_file shelf p) /\ (forall p, orderly_spec shelf p) /\
  xmlbif_fault (FT := fractions) shelf "nothing.xbif" FileNotFoundError /\ xmlbif_fault (FT := fractions) shelf "one.conf" ValueError /\
  spec_fault (FT := fractions) shelf "one.conf" StructureError /\ spec_fault (FT := fractions) shelf "two.conf" PlainException /\
  spec_fault (FT := fractions) shelf "three.conf" FileNotFoundError /\ forall e, ~ spec_fault (FT := fractions) shelf "four.conf" e.
Proof.
  split; [exact shelf_orderly|]. assert (OS : forall p, orderly_spec shelf p) by (intros p a b ts _; split; apply shelf_orderly). split; [exact OS|].
  assert (S0 : sound_heap []) by (intros [|] ? X; discriminate).
  assert (F : forall p e, snd (xmlbif_parse (FT := fractions) true [] p shelf) = Err e -> xmlbif_fault (FT := fractions) shelf p e).
  { intros p e H. apply (xmlbif_raises (FT := fractions) true []); [exact S0|apply shelf_orderly|]. destruct (xmlbif_parse _ _ _ _) as [h r]. exists h. cbn in H. rewrite H. reflexivity. }
  assert (G : forall p e, snd (dbn_parse (FT := fractions) true [] p shelf) = Err e -> spec_fault (FT := fractions) shelf p e).
  { intros p e H. apply (spec_raises (FT := fractions) true []); [exact S0|apply OS|]. destruct (dbn_parse _ _ _ _) as [h r]. exists h. cbn in H. rewrite H. reflexivity. }
  split; [apply F; vm_compute; reflexivity|]. split; [apply F; vm_compute; reflexivity|]. split; [apply G; vm_compute; reflexivity|].
  split; [apply G; vm_compute; reflexivity|]. split; [apply G; vm_compute; reflexivity|].
  intros e X. apply (spec_raises (FT := fractions) true []) in X; [|exact S0|apply OS]. destruct X as (h & X). vm_compute in X. discriminate.
Qed.

Example C71_write_example : reached lab /\ first_broken (xmlbif_conditions true lab "none/x.xbif" disk) FileNotFoundError /\
  inv (mkW rain_h (db0 rain_d)) /\ inv (mkW rain_h (dtwo rain_d)) /\
  first_broken (spec_conditions true rain_h rain_d "none/" "rain" disk) FileNotFoundError /\ (forall e, ~ first_broken (spec_conditions true rain_h rain_d "nets/" "rain" disk) e).
Proof.
  split; [exact lab_reached|]. split; [apply (xmlbif_write_raises (FT := fractions) true lab _ _ (reached_inv _ lab_reached)); vm_compute; reflexivity|].
  destruct rain_inv as [I0 I2]. split; [exact I0|]. split; [exact I2|]. split; [apply (dbn_write_raises (FT := fractions) true rain_h rain_d _ _ _ _ I0 I2); vm_compute; reflexivity|].
  intros e X. apply (dbn_write_raises (FT := fractions) true rain_h rain_d _ _ _ _ I0 I2) in X. vm_compute in X. discriminate.
Qed.

Print Assumptions C71_document.
Print Assumptions C71_network_file.
Print Assumptions C71_specification.
Print Assumptions C71_write_network.
Print Assumptions C71_write_specification.
