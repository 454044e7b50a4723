(** PRIMO's own unit tests (primo2/tests), replayed on the model: files, exact
    inference and decision networks, starting from the XMLBIF files the tests
    read.  (White space between elements is left out of the documents.) *)
From Coq Require Import Ascii QArith.
From Verif Require Import Base BaseFacts NDArray Node Network NetSpec Factor Exact Order JoinTree Sampling Decision DecSpec DecChecks Dynamic
  Xml IO IOText Files Fractions Instances ExampleNets Suite.

(** [float("0.75")]: decimals, read exactly.  Printing is as in Fractions.v. *)
Definition dec_read (s : string) : option Qc :=
  match frac_read s with
  | Some q => Some q
  | None => match split_at "."%char s with
            | [a; b] => match int_read (a ++ b)%string with
                        | Some n => Some (Q2Qc (n # Pos.of_nat (Nat.pow 10 (String.length b))))
                        | None => None
                        end
            | _ => None
            end
  end.

Definition decimals : FloatText.
Proof.
  refine {| fprint := frac_text; fread := dec_read |}.
  - intros int q. unfold dec_read. rewrite frac_read_text. reflexivity.
  - exact (@fprint_filled fractions).
  - exact (@fprint_plain fractions).
Defined.
Global Existing Instance decimals.

(** ** The test files *)
Definition slippery : xml := El "BIF" [("VERSION", "0.3")] None [
   El "NETWORK" [] None [El "NAME" [] (Some "bayesiannetwork") [];
    El "VARIABLE" [("TYPE", "nature")] None [El "NAME" [] (Some "slippery_road") []; El "OUTCOME" [] (Some "true") []; El "OUTCOME" [] (Some "false") []; El "PROPERTY" [] (Some "position = (689, -29)") []];
    El "VARIABLE" [("TYPE", "nature")] None [El "NAME" [] (Some "sprinkler") []; El "OUTCOME" [] (Some "true") []; El "OUTCOME" [] (Some "false") []; El "PROPERTY" [] (Some "position = (102, -243)") []];
    El "VARIABLE" [("TYPE", "nature")] None [El "NAME" [] (Some "rain") []; El "OUTCOME" [] (Some "true") []; El "OUTCOME" [] (Some "false") []; El "PROPERTY" [] (Some "position = (520, -237)") []];
    El "VARIABLE" [("TYPE", "nature")] None [El "NAME" [] (Some "wet_grass") []; El "OUTCOME" [] (Some "true") []; El "OUTCOME" [] (Some "false") []; El "PROPERTY" [] (Some "position = (326, -20)") []];
    El "VARIABLE" [("TYPE", "nature")] None [El "NAME" [] (Some "winter") []; El "OUTCOME" [] (Some "true") []; El "OUTCOME" [] (Some "false") []; El "PROPERTY" [] (Some "position = (318, -399)") []];
    El "DEFINITION" [] None [El "FOR" [] (Some "slippery_road") []; El "GIVEN" [] (Some "rain") []; El "TABLE" [] (Some "0.7 0.3 0.0 1.0 ") []];
    El "DEFINITION" [] None [El "FOR" [] (Some "sprinkler") []; El "GIVEN" [] (Some "winter") []; El "TABLE" [] (Some "0.2 0.8 0.75 0.25 ") []];
    El "DEFINITION" [] None [El "FOR" [] (Some "rain") []; El "GIVEN" [] (Some "winter") []; El "TABLE" [] (Some "0.8 0.2 0.1 0.9 ") []];
    El "DEFINITION" [] None [El "FOR" [] (Some "wet_grass") []; El "GIVEN" [] (Some "sprinkler") []; El "GIVEN" [] (Some "rain") []; El "TABLE" [] (Some "0.95 0.05 0.1 0.9 0.8 0.2 0.0 1.0 ") []];
    El "DEFINITION" [] None [El "FOR" [] (Some "winter") []; El "TABLE" [] (Some "0.6 0.4 ") []]]].

Definition testfile : xml := El "BIF" [("VERSION", "0.3")] None [
   El "NETWORK" [] None [El "PROPERTY" [] (Some "Random network property") []; El "PROPERTY" [] (Some "Author jpoeppel") []; El "NAME" [] (Some "Test Net") [];
    El "VARIABLE" [("TYPE", "nature")] None [El "NAME" [] (Some "Burglary") []; El "OUTCOME" [] (Some "Intruder") []; El "OUTCOME" [] (Some "Safe") []; El "PROPERTY" [] (Some "position = (450, 100)") []];
    El "VARIABLE" [("TYPE", "nature")] None [El "NAME" [] (Some "Alarm") []; El "OUTCOME" [] (Some "Ringing") []; El "OUTCOME" [] (Some "Silent") []; El "OUTCOME" [] (Some "Kaputt") []; El "PROPERTY" [] (Some "position = (300, 100)") []; El "PROPERTY" [] (Some "Random meta test") []];
    El "VARIABLE" [("TYPE", "nature")] None [El "NAME" [] (Some "John_calls") []; El "OUTCOME" [] (Some "Calling") []; El "OUTCOME" [] (Some "Not Calling") []; El "PROPERTY" [] (Some "position = (150, 200)") []];
    El "DEFINITION" [] None [El "FOR" [] (Some "Burglary") []; El "TABLE" [] (Some "0.4 0.6 ") []];
    El "DEFINITION" [] None [El "FOR" [] (Some "Alarm") []; El "TABLE" [] (Some "0.2 0.3 0.5 ") []];
    El "DEFINITION" [] None [El "FOR" [] (Some "John_calls") []; El "GIVEN" [] (Some "Alarm") []; El "GIVEN" [] (Some "Burglary") []; El "TABLE" [] (Some "0.8 0.2 0.6 0.4 0.5 0.5 0.2 0.8 0.7 0.3 0.1 0.9 ") []]]].

Definition dbn_b0 : xml := El "BIF" [("VERSION", "0.3")] None [
   El "NETWORK" [] None [El "NAME" [] (Some "Test_DBN_B0") [];
    El "VARIABLE" [("TYPE", "nature")] None [El "NAME" [] (Some "A") []; El "OUTCOME" [] (Some "True") []; El "OUTCOME" [] (Some "False") []; El "PROPERTY" [] (Some "position = (300, 0)") []];
    El "VARIABLE" [("TYPE", "nature")] None [El "NAME" [] (Some "B") []; El "OUTCOME" [] (Some "True") []; El "OUTCOME" [] (Some "False") []; El "PROPERTY" [] (Some "position = (400, 0)") []];
    El "VARIABLE" [("TYPE", "nature")] None [El "NAME" [] (Some "C") []; El "OUTCOME" [] (Some "True") []; El "OUTCOME" [] (Some "False") []; El "PROPERTY" [] (Some "position = (300, 0)") []];
    El "DEFINITION" [] None [El "FOR" [] (Some "B") []; El "TABLE" [] (Some "0.5 0.5 ") []];
    El "DEFINITION" [] None [El "FOR" [] (Some "C") []; El "TABLE" [] (Some "0.2 0.8 ") []]]].

Definition dbn_2tbn : xml := El "BIF" [("VERSION", "0.3")] None [
   El "NETWORK" [] None [El "NAME" [] (Some "Test_DBN_2TBN") [];
    El "VARIABLE" [("TYPE", "nature")] None [El "NAME" [] (Some "A") []; El "OUTCOME" [] (Some "True") []; El "OUTCOME" [] (Some "False") []; El "PROPERTY" [] (Some "position = (300, 0)") []];
    El "VARIABLE" [("TYPE", "nature")] None [El "NAME" [] (Some "B") []; El "OUTCOME" [] (Some "True") []; El "OUTCOME" [] (Some "False") []; El "PROPERTY" [] (Some "position = (400, 0)") []];
    El "VARIABLE" [("TYPE", "nature")] None [El "NAME" [] (Some "B_t0") []; El "OUTCOME" [] (Some "True") []; El "OUTCOME" [] (Some "False") []; El "PROPERTY" [] (Some "position = (400, 0)") []];
    El "VARIABLE" [("TYPE", "nature")] None [El "NAME" [] (Some "C") []; El "OUTCOME" [] (Some "True") []; El "OUTCOME" [] (Some "False") []; El "PROPERTY" [] (Some "position = (300, 0)") []];
    El "VARIABLE" [("TYPE", "nature")] None [El "NAME" [] (Some "C_t0") []; El "OUTCOME" [] (Some "True") []; El "OUTCOME" [] (Some "False") []; El "PROPERTY" [] (Some "position = (300, 0)") []];
    El "DEFINITION" [] None [El "FOR" [] (Some "A") []; El "GIVEN" [] (Some "B_t0") []; El "GIVEN" [] (Some "C_t0") []; El "TABLE" [] (Some "0.8 0.2 0.6 0.4 0.65 0.25 0.5 0.5 ") []];
    El "DEFINITION" [] None [El "FOR" [] (Some "B") []; El "GIVEN" [] (Some "B_t0") []; El "GIVEN" [] (Some "A") []; El "TABLE" [] (Some "0.2 0.8 0.3 0.7 0.4 0.6 0.75 0.25") []];
    El "DEFINITION" [] None [El "FOR" [] (Some "B_t0") []; El "TABLE" [] (Some "0.5 0.5 ") []];
    El "DEFINITION" [] None [El "FOR" [] (Some "C") []; El "GIVEN" [] (Some "C_t0") []; El "TABLE" [] (Some "0.7 0.3 0.45 0.55") []];
    El "DEFINITION" [] None [El "FOR" [] (Some "C_t0") []; El "TABLE" [] (Some "0.1 0.9 ") []]]].

Definition gegenstand : xml := El "BIF" [("VERSION", "0.3")] None [
   El "NETWORK" [] None [El "NAME" [] (Some "bayesiannetwork") [];
    El "VARIABLE" [("TYPE", "nature")] None [El "NAME" [] (Some "bildschirm") []; El "OUTCOME" [] (Some "ja") []; El "OUTCOME" [] (Some "nein") []; El "PROPERTY" [] (Some "position = (225, -12)") []];
    El "VARIABLE" [("TYPE", "nature")] None [El "NAME" [] (Some "antrieb") []; El "OUTCOME" [] (Some "stromnetz") []; El "OUTCOME" [] (Some "akku") []; El "OUTCOME" [] (Some "hybrid") []; El "PROPERTY" [] (Some "position = (0, 0)") []];
    El "VARIABLE" [("TYPE", "nature")] None [El "NAME" [] (Some "gegenstand") []; El "OUTCOME" [] (Some "server") []; El "OUTCOME" [] (Some "laptop") []; El "OUTCOME" [] (Some "smartphone") []; El "OUTCOME" [] (Some "fernseher") []; El "OUTCOME" [] (Some "akkuschrauber") []; El "PROPERTY" [] (Some "position = (475, -239)") []];
    El "VARIABLE" [("TYPE", "nature")] None [El "NAME" [] (Some "internet") []; El "OUTCOME" [] (Some "ja") []; El "OUTCOME" [] (Some "nein") []; El "PROPERTY" [] (Some "position = (44, -116)") []];
    El "VARIABLE" [("TYPE", "nature")] None [El "NAME" [] (Some "einsatz") []; El "OUTCOME" [] (Some "buero") []; El "OUTCOME" [] (Some "heim") []; El "OUTCOME" [] (Some "mobil") []; El "PROPERTY" [] (Some "position = (469, 27)") []];
    El "VARIABLE" [("TYPE", "nature")] None [El "NAME" [] (Some "farbe") []; El "OUTCOME" [] (Some "schwarz") []; El "OUTCOME" [] (Some "grau") []; El "OUTCOME" [] (Some "blau") []; El "OUTCOME" [] (Some "gruen") []; El "PROPERTY" [] (Some "position = (732, -14)") []];
    El "DEFINITION" [] None [El "FOR" [] (Some "bildschirm") []; El "GIVEN" [] (Some "gegenstand") []; El "TABLE" [] (Some "0.01 0.99 1.0 0.0 1.0 0.0 1.0 0.0 0.05 0.95 ") []];
    El "DEFINITION" [] None [El "FOR" [] (Some "antrieb") []; El "GIVEN" [] (Some "gegenstand") []; El "TABLE" [] (Some "1.0 0.0 0.0 0.0 0.0 1.0 0.0 1.0 0.0 1.0 0.0 0.0 0.0 1.0 0.0 ") []];
    El "DEFINITION" [] None [El "FOR" [] (Some "gegenstand") []; El "TABLE" [] (Some "0.2 0.2 0.2 0.2 0.2 ") []];
    El "DEFINITION" [] None [El "FOR" [] (Some "internet") []; El "GIVEN" [] (Some "gegenstand") []; El "TABLE" [] (Some "1.0 0.0 0.9 0.1 0.8 0.2 0.5 0.5 0.01 0.99 ") []];
    El "DEFINITION" [] None [El "FOR" [] (Some "einsatz") []; El "GIVEN" [] (Some "gegenstand") []; El "TABLE" [] (Some "0.98 0.02 0.0 0.3333333333333333 0.3333333333333333 0.3333333333333333 0.05 0.35 0.6 0.0 1.0 0.0 0.02 0.8 0.18 ") []];
    El "DEFINITION" [] None [El "FOR" [] (Some "farbe") []; El "GIVEN" [] (Some "gegenstand") []; El "TABLE" [] (Some "0.5 0.5 0.0 0.0 0.6 0.3 0.05 0.05 0.3 0.2 0.3 0.2 0.7 0.25 0.05 0.0 0.25 0.25 0.25 0.25 ") []]]].

(** ** IO_test.py *)
Definition load_ (ignore : bool) (h : heap) (x : xml) : world :=
  match parse_tree ignore h x with (h', Ok g) => mkW h' g | (h', Err _) => mkW h' empty_net end.
Definition nd (w : world) (v : string) : node :=
  match dget v (lookup (wnet w)) with Some i => deref (whp w) i | None => new_node KBase "" [] end.
Definition W : world := load_ true [] slippery.

(** test_readXMLBIF (34-61) *)
Example t_readXMLBIF :
  (dkeys (ggraph (wnet W)), nporder (nd W "slippery_road"), nporder (nd W "sprinkler"), nporder (nd W "rain"), nvalues (nd W "wet_grass"))
  = (["slippery_road"; "sprinkler"; "rain"; "wet_grass"; "winter"], ["rain"], ["winter"], ["winter"], ["true"; "false"]) /\
  same_arr (tarr (ncpd (nd W "rain"))) [2; 2] (map d100 [80; 10; 20; 90]%Z) &&
  same (get_probability (whp W) (nd W "wet_grass") "false" [("rain", Many ["true"]); ("sprinkler", Many ["false"])]) [] [d100 20] &&
  same (get_probability (whp W) (nd W "wet_grass") "true" [("rain", Many ["false"]); ("sprinkler", Many ["true"])]) [] [d100 10] = true.
Proof. split; vm_compute; reflexivity. Qed.
(** test_readXMLBIF_different_parent_sizes (65-70) *)
Definition T : world := load_ false [] testfile.
Definition T' : world := load_ true [] testfile.
Example t_different_parent_sizes :
  same_arr (tarr (ncpd (nd T' "John_calls"))) [2; 2; 3] (map d100 [80; 50; 70; 60; 20; 10; 20; 50; 30; 40; 80; 90]%Z) = true.
Proof. vm_compute. reflexivity. Qed.
(** test_readXMLBIF_with_* (72-106) *)
Example t_properties :
  (nmeta (nd T "John_calls"), nmeta (nd T "Alarm"), bmeta (wnet T)) =
  ([Some "position = (150, 200)"], [Some "position = (300, 100)"; Some "Random meta test"], [Some "Random network property"; Some "Author jpoeppel"]) /\
  (nmeta (nd T' "John_calls"), nmeta (nd T' "Alarm"), bmeta (wnet T'), bmeta (wnet (load_ false [] slippery))) = ([], [], [], []).
Proof. split; vm_compute; reflexivity. Qed.
(** test_writeXMLBIF_* (111-196) *)
Definition again (wi ri : bool) (w : world) : world :=
  match write_tree wi w with Ok t => load_ ri [] (reread 0 t) | Err _ => start end.
Definition agree (w w' : world) : bool :=
  str_list_eqb (dkeys (ggraph (wnet w))) (dkeys (ggraph (wnet w'))) &&
  forallb (fun v => str_list_eqb (nvalues (nd w v)) (nvalues (nd w' v)) && str_list_eqb (nporder (nd w v)) (nporder (nd w' v)) &&
                    same_arr (tarr (ncpd (nd w v))) (shape (tarr (ncpd (nd w' v)))) (data (tarr (ncpd (nd w' v))))) (dkeys (ggraph (wnet w))).
Definition simple : world := run start [NewNode KDiscrete "a" TF; NewNode KDiscrete "b" ["happy"; "sad"]; AddNode 0; AddNode 1; AddEdge "a" "b"].
Example t_writeXMLBIF : agree simple (again false true simple) && agree W (again false true W) && negb (agree W (again false true T)) = true.
Proof. vm_compute. reflexivity. Qed.
Definition dummy : world := fst (exec W (Label (bname (wnet W)) [Some "Dummy property"])).
Example t_write_properties :
  (bmeta (wnet (again true false dummy)), bmeta (wnet (again false false dummy)), nmeta (nd (again true false T) "Alarm"),
   nmeta (nd (again false false T) "John_calls"), nmeta (nd (again false false T) "Alarm"))
  = ([], [Some "Dummy property"], [], [Some "position = (150, 200)"], [Some "position = (300, 100)"; Some "Random meta test"]).
Proof. vm_compute. reflexivity. Qed.

(** DBNSpecTest (198-312): the directory of the tests, with copies of the networks
    where test_parseDBN_relative and _absolute_path put them. *)
Definition ts := [("C_t0", "C"); ("B_t0", "B")].
Definition here := ["home"; "primo2"; "tests"].
Definition disk (cwd : loc) : fs := mkFs [["home"]; ["home"; "primo2"]; here; ["tmp"]]
  [(here ++ ["dbn-test-b0.xbif"], Doc dbn_b0); (here ++ ["dbn-test-2tbn.xbif"], Doc dbn_2tbn);
   (["home"; "primo2"; "dbn-test-b0.xbif"], Doc dbn_b0); (["home"; "primo2"; "dbn-test-2tbn.xbif"], Doc dbn_2tbn);
   (["tmp"; "dbn-test-b0.xbif"], Doc dbn_b0); (["tmp"; "dbn-test-2tbn.xbif"], Doc dbn_2tbn);
   (here ++ ["dbn-test.conf"], Conf "dbn-test-b0.xbif" "dbn-test-2tbn.xbif" ts);
   (here ++ ["dbn-test-relative.conf"], Conf "../dbn-test-b0.xbif" "../dbn-test-2tbn.xbif" ts);
   (here ++ ["dbn-test-abs.conf"], Conf "/tmp/dbn-test-b0.xbif" "/tmp/dbn-test-2tbn.xbif" ts);
   (here ++ ["dbn-test-mixed.conf"], Conf "/tmp/dbn-test-b0.xbif" "dbn-test-2tbn.xbif" ts)] cwd.
Definition dnames (r : heap * res dbnet) : option (option string * option string * list (string * string)) :=
  match snd r with Ok d => Some (bname (db0 d), bname (dtwo d), dtrans d) | Err _ => None end.
Example t_parseDBN :
  map (fun p => dnames (dbn_parse true [] (snd p) (disk (fst p))))
    [(["home"], "primo2/tests/dbn-test.conf"); (here, "dbn-test.conf"); (["home"], "primo2/tests/dbn-test-relative.conf");
     (["home"], "primo2/tests/dbn-test-abs.conf"); (["home"], "primo2/tests/dbn-test-mixed.conf")]
  = repeat (Some (Some "Test_DBN_B0", Some "Test_DBN_2TBN", ts)) 5.
Proof. vm_compute. reflexivity. Qed.
(** test_writeDBN, test_writeDBN_with_properties (251-312) *)
Definition dbn0 := dbn_parse false [] "primo2/tests/dbn-test.conf" (disk ["home"]).
Definition rewritten (ignore : bool) : option (list (option string) * bool * bool) :=
  match dbn0 with
  | (h, Ok d) => match dbn_write ignore h d "primo2/tests/" "test-dbn" (disk ["home"]) with
                 | (f, Ok _) => match dbn_parse false [] "primo2/tests/test-dbn.conf" f with
                                | (h', Ok d') => Some (nmeta (nd (mkW h' (dtwo d')) "A"), agree (mkW h (db0 d)) (mkW h' (db0 d')), agree (mkW h (dtwo d)) (mkW h' (dtwo d')))
                                | _ => None
                                end
                 | _ => None
                 end
  | _ => None
  end.
Example t_writeDBN : (rewritten true, rewritten false) = (Some ([], true, true), Some ([Some "position = (300, 0)"], true, true)).
Proof. vm_compute. reflexivity. Qed.

(** ** Inference_test.py *)
Definition S_ : bn := view W.
(** EliminationOderTest (33-82): one of the orders listed there. *)
Example t_min_degree_order : get_min_degree_order S_ = Ok ["slippery_road"; "sprinkler"; "rain"; "wet_grass"; "winter"].
Proof. vm_compute. reflexivity. Qed.
Example t_random_order : get_random_order S_ = ["slippery_road"; "sprinkler"; "rain"; "wet_grass"; "winter"].
Proof. vm_compute. reflexivity. Qed.
(** VariableEliminationTest (84-148) *)
Definition blank2 : bn := view (run start [NewNode KDiscrete "a" TF; NewNode KDiscrete "b" TF; AddNode 0; AddNode 1; AddEdge "a" "b"]).
Definition answer (r : res factor) : res ndarray := let* f := r in get_potential f [].
Example t_empty_cpt : same (answer (naive_marginals blank2 ["a"] [])) [2] [0%Qc; 0%Qc] = true.
Proof. vm_compute. reflexivity. Qed.
Definition hard (l : list (string * string)) : evidence := map (fun p => (fst p, Hard (snd p))) l.
Definition buckets (b : bn) (vs : list string) (ev : evidence) : res factor :=
  let* o := order_or_default b None in snd (bucket_marginals b vs ev o).
Definition tree_answer (b : bn) (vs : list string) (ev : evidence) : res factor :=
  let* t := create_jointree b None in
  match set_evidence b ev false t with (t', Ok _) => snd (tmarginals t' vs) | (_, Err e) => Err e end.
Definition cases : list (string * list (string * string) * list Qc) :=
  [("winter", [], [d100 60; d100 40]);
   ("rain", [("winter", "true")], [d100 80; d100 20]);
   ("wet_grass", [("sprinkler", "true"); ("rain", "false")], [d100 10; d100 90]);
   ("wet_grass", [("winter", "true")], [qq 668 1000; qq 332 1000]);
   ("wet_grass", [("winter", "true"); ("rain", "false")], [d100 2; d100 98]);
   ("rain", [("wet_grass", "false")], [qq 158858 1000000; qq 841142 1000000]);
   ("slippery_road", [], [qq 364 1000; qq 636 1000]);
   ("sprinkler", [], [d100 42; d100 58]);
   ("slippery_road", [("slippery_road", "true")], [1%Qc; 0%Qc])].
Definition passes (f : bn -> list string -> evidence -> res factor) : bool :=
  forallb (fun c => match c with (v, ev, l) => close (answer (f S_ [v] (hard ev))) [2] l end) cases.
Example t_naive_marginals : passes naive_marginals = true.
Proof. vm_compute. reflexivity. Qed.
Example t_bucket_marginals : passes buckets = true.
Proof. vm_compute. reflexivity. Qed.
(** FactorEliminationTest (151-257) *)
Example t_jointree_marginals : passes tree_answer = true.
Proof. vm_compute. reflexivity. Qed.
Example t_jointree_marginals_without_evidence :
  forallb (fun c => close (answer (let* t := create_jointree S_ None in snd (tmarginals t [fst c]))) [2] (snd c))
    [("winter", [d100 60; d100 40]); ("slippery_road", [qq 364 1000; qq 636 1000]); ("sprinkler", [d100 42; d100 58])] = true.
Proof. vm_compute. reflexivity. Qed.
Definition with_a : bn := view (run W [NewNode KDiscrete "a" TF; AddNode 5]).
Example t_not_connected_node_without_cpt : same (answer (tree_answer with_a ["a"] (hard [("a", "False")]))) [2] [0%Qc; 0%Qc] = true.
Proof. vm_compute. reflexivity. Qed.
Example t_tree_empty_cpt : same (answer (let* t := create_jointree blank2 None in snd (tmarginals t ["a"]))) [2] [0%Qc; 0%Qc] = true.
Proof. vm_compute. reflexivity. Qed.
Example t_create_jointree :
  match create_jointree S_ (Some ["slippery_road"; "wet_grass"; "sprinkler"; "winter"; "rain"]) with
  | Ok t => Nat.eqb (length (tnodes t)) 3 && forallb (fun k => mem k
      ["slippery_roadrain"; "wet_grasssprinklerrain"; "wet_grassrainsprinkler"; "sprinklerwinterrain"; "sprinklerrainwinter";
       "wintersprinklerrain"; "winterrainsprinkler"; "rainsprinklerwinter"; "rainwintersprinkler"]) (dkeys (tnodes t))
  | Err _ => false end = true.
Proof. vm_compute. reflexivity. Qed.
Definition cloth : bn := view (run start [NewNode KDiscrete "cloth" ["green"; "blue"; "red"]; NewNode KDiscrete "sold" TF; AddNode 0; AddNode 1; AddEdge "cloth" "sold";
  SetCpd 0 false (mkArr [3] (map d100 [30; 30; 40]%Z)); SetCpd 1 false (mkArr [2; 3] (map d100 [40; 40; 80; 60; 60; 20]%Z))]).
Example t_soft_evidence :
  match create_jointree cloth None with
  | Ok t => let t' := fst (set_evidence cloth [("cloth", Soft (map d100 [70; 25; 5]%Z))] true t) in
            close (answer (snd (tmarginals t' ["cloth"]))) [3] (map d100 [70; 25; 5]%Z) && close (answer (snd (tmarginals t' ["sold"]))) [2] (map d100 [42; 58]%Z)
  | Err _ => false end = true.
Proof. vm_compute. reflexivity. Qed.

(** ** Decision_test.py (21-90) *)
Global Existing Instance forwards.
Definition income (x : string) (q : Qc) (s n : string) := DProb 2 x q [("startup", s); ("nobel", n)].
Definition phd : dworld := drun dstart
  ([DNew KDecision "education" ["do Phd"; "no Phd"]; DNew KDecision "startup" ["start up"; "no start up"];
    DNew KDiscrete "income" ["low"; "average"; "high"]; DNew KDiscrete "nobel" ["prize"; "no prize"];
    DNew KUtility "costsE" []; DNew KUtility "costsS" []; DNew KUtility "gains" []] ++ map DAdd [0; 1; 2; 3; 4; 5; 6] ++
   [DEdge "education" "costsE"; DEdge "education" "nobel"; DEdge "startup" "income"; DEdge "startup" "costsS"; DEdge "nobel" "income"; DEdge "income" "gains";
    income "low" (d100 10) "start up" "no prize"; income "low" (d100 20) "no start up" "no prize";
    income "low" (qq 5 1000) "start up" "prize"; income "low" (d100 5) "no start up" "prize";
    income "average" (d100 50) "start up" "no prize"; income "average" (d100 60) "no start up" "no prize";
    income "average" (qq 5 1000) "start up" "prize"; income "average" (d100 15) "no start up" "prize";
    income "high" (d100 40) "start up" "no prize"; income "high" (d100 20) "no start up" "no prize";
    income "high" (d100 99) "start up" "prize"; income "high" (d100 80) "no start up" "prize";
    DProb 3 "prize" (qq 1 10000000) [("education", "no Phd")]; DProb 3 "prize" (qq 1 1000) [("education", "do Phd")];
    DProb 3 "no prize" (qq 9999999 10000000) [("education", "no Phd")]; DProb 3 "no prize" (qq 999 1000) [("education", "do Phd")];
    DUtility 4 (qq (-50000) 1) [("education", "do Phd")]; DUtility 4 0%Qc [("education", "no Phd")];
    DUtility 5 (qq (-200000) 1) [("startup", "start up")]; DUtility 5 0%Qc [("startup", "no start up")];
    DUtility 6 (qq 100000 1) [("income", "low")]; DUtility 6 (qq 200000 1) [("income", "average")]; DUtility 6 (qq 500000 1) [("income", "high")]]).
Definition jf (i : oid) : res jfactor := joint_factor (dheap phd) (deref (dheap phd) i).
Definition ok_and {A} (r : res A) (p : A -> bool) : bool := match r with Ok a => p a | Err _ => false end.
Definition arr_eqb (a b : ndarray) : bool := same_arr a (shape b) (data b).
(** test_combine_factors_* (93-143) *)
Example t_combine_chance :
  ok_and (let* a := jf 2 in let* b := jf 3 in let* c := combine_factors [a; b] in let* p := fmul (fst a) (fst b) in Ok (c, p))
    (fun r => let '(c, p) := r in str_list_eqb (vorder (fst c)) ["income"; "startup"; "nobel"; "education"] && arr_eqb (pot (fst c)) (pot p) &&
              arr_eqb (pot (snd c)) (np_zeros (shape (pot p)))) = true.
Proof. vm_compute. reflexivity. Qed.
Example t_combine_utility :
  ok_and (let* a := jf 6 in let* b := jf 5 in let* c := combine_factors [a; b] in let* u := fadd (snd a) (snd b) in Ok (c, u))
    (fun r => let '(c, u) := r in str_list_eqb (vorder (fst c)) ["income"; "startup"] && arr_eqb (pot (fst c)) (np_full [3; 2] 1%Qc) && arr_eqb (pot (snd c)) (pot u)) = true.
Proof. vm_compute. reflexivity. Qed.
Example t_combine_mixed :
  ok_and (let* a := jf 6 in let* b := jf 2 in combine_factors [a; b])
    (fun c => str_list_eqb (vorder (fst c)) ["income"; "startup"; "nobel"] &&
              same_arr (pot (snd c)) [3; 2; 2] (flat_map (fun n => repeat (qq n 1) 4) [100000; 200000; 500000]%Z)) = true.
Proof. vm_compute. reflexivity. Qed.
(** test_marginalize_joint_factor, _complex, test_generalized_VE (145-195) *)
Example t_marginalize_joint :
  ok_and (let* a := jf 2 in let* m := marginalize_joint a "income" in let* p := marginalize (fst a) ["income"] in Ok (m, p))
    (fun r => let '(m, p) := r in str_list_eqb (vorder (fst m)) ["startup"; "nobel"] && arr_eqb (pot (fst m)) (pot p) && nat_list_eqb (shape (pot (snd m))) (shape (pot p))) = true.
Proof. vm_compute. reflexivity. Qed.
Example t_marginalize_complex :
  ok_and (let* a := jf 6 in let* b := jf 2 in let* c := combine_factors [a; b] in let* m := marginalize_joint c "income" in let* g := generalized_VE [a; b] ["income"] in
          let* mf := marginalize (fst b) ["income"] in let* ub := fmul (snd a) (fst b) in let* s := marginalize ub ["income"] in let* d := fdiv s mf in Ok (m, g, mf, d))
    (fun r => let '(m, g, mf, d) := r in
       arr_eqb (pot (fst m)) (pot mf) && arr_eqb (pot (snd m)) (pot d) && arr_eqb (pot (fst g)) (pot mf) && arr_eqb (pot (snd g)) (pot d)) = true.
Proof. vm_compute. reflexivity. Qed.
(** test_expected_utility, test_get_optimal_decisions (198-221) *)
Example t_expected_utility :
  forallb (fun c => same (snd (expected_utility phd [("startup", fst (fst c)); ("education", snd (fst c))])) [] [snd c])
    [("no start up", "do Phd", qq 190195 1); ("no start up", "no Phd", qq 2400000195 10000); ("start up", "do Phd", qq 601865 10); ("start up", "no Phd", qq 11000001865 100000)] = true.
Proof. vm_compute. reflexivity. Qed.
Example t_optimal_decisions : snd (optimal_decisions phd ["startup"; "education"] []) = Ok [("startup", "no start up"); ("education", "no Phd")].
Proof. vm_compute. reflexivity. Qed.
