(** Concrete networks used to show that hypotheses can be met. *)
From Verif Require Import Base NDArray Factor Exact.

Definition qq (n : Z) (d : positive) : Qc := qfrac n d.
Definition tf := ["t"; "f"].
Definition xyz := ["x"; "y"; "z"].

(** A -> B, A -> C, B -> C, C -> D; B has three values, one zero entry. *)
Definition nA : dnode := mkN "A" tf [] [] (mkArr [2] [qq 1 5; qq 4 5]).
Definition nB : dnode := mkN "B" xyz [("A", tf)] ["A"]
  (mkArr [3; 2] [qq 1 2; qq 1 10; qq 1 2; qq 3 10; 0%Qc; qq 6 10]).
Definition nC : dnode := mkN "C" tf [("B", xyz); ("A", tf)] ["A"; "B"]
  (mkArr [2; 3; 2] [qq 1 10; qq 2 10; qq 3 10; qq 4 10; qq 5 10; qq 6 10;
                    qq 9 10; qq 8 10; qq 7 10; qq 6 10; qq 5 10; qq 4 10]).
Definition nD : dnode := mkN "D" tf [("C", tf)] ["C"] (mkArr [2; 2] [qq 3 4; qq 1 4; qq 1 4; qq 3 4]).
Definition net : bn := mkBN [nA; nB; nC; nD] ["A"; "B"; "C"; "D"]
  [("A", "B"); ("B", "C"); ("A", "C"); ("C", "D")].

(** X, Y, Z -> W and U -> V: the skeleton and the interaction graph differ. *)
Definition leaf (v : string) : dnode := mkN v tf [] [] (mkArr [2] [qq 1 2; qq 1 2]).
Definition star : bn :=
  mkBN [leaf "X"; leaf "Y"; leaf "Z";
        mkN "W" tf [("X", tf); ("Y", tf); ("Z", tf)] ["X"; "Y"; "Z"] (np_full [2; 2; 2; 2] (qq 1 2));
        leaf "U"; mkN "V" tf [("U", tf)] ["U"] (np_full [2; 2] (qq 1 2))]
       ["X"; "Y"; "Z"; "W"; "U"; "V"]
       [("X", "W"); ("Y", "W"); ("Z", "W"); ("U", "V")].

(** A -> B -> C -> D and A -> E -> D: the moral graph has a cycle of length 4. *)
Definition root (v : string) : dnode := mkN v tf [] [] (mkArr [2] [qq 1 5; qq 4 5]).
Definition child (v p : string) : dnode := mkN v tf [(p, tf)] [p] (mkArr [2; 2] [qq 1 10; qq 7 10; qq 9 10; qq 3 10]).
Definition loop5 : bn := mkBN [root "A"; child "B" "A"; child "C" "B"; child "E" "A";
   mkN "D" tf [("C", tf); ("E", tf)] ["C"; "E"]
     (mkArr [2; 2; 2] [qq 1 10; qq 7 10; qq 4 10; qq 1 2; qq 9 10; qq 3 10; qq 6 10; qq 1 2])]
  ["A"; "B"; "C"; "E"; "D"] [("A", "B"); ("B", "C"); ("A", "E"); ("C", "D"); ("E", "D")].

(** Two components. *)
Definition two : bn := mkBN [root "X"; root "A"; child "B" "A"] ["X"; "A"; "B"] [("A", "B")].

(** Two chains A -> B -> C and X -> Y -> Z. *)
Definition chains : bn := mkBN [root "A"; child "B" "A"; child "C" "B"; root "X"; child "Y" "X"; child "Z" "Y"]
  ["A"; "B"; "C"; "X"; "Y"; "Z"] [("A", "B"); ("B", "C"); ("X", "Y"); ("Y", "Z")].

(** A chain whose clusters {a, bc} and {ab, c} get the same key. *)
Definition chn : bn := mkBN [root "a"; child "bc" "a"; child "ab" "bc"; child "c" "ab"]
  ["a"; "bc"; "ab"; "c"] [("a", "bc"); ("bc", "ab"); ("ab", "c")].

(** One parent each: R -> S1, R -> S2, S1 -> T. *)
Definition arbo : bn := mkBN [root "R"; child "S1" "R"; child "S2" "R"; child "T" "S1"]
  ["R"; "S1"; "S2"; "T"] [("R", "S1"); ("R", "S2"); ("S1", "T")].

(** [net] with another table for A. *)
Definition net' : bn := mkBN [mkN "A" tf [] [] (mkArr [2] [qq 1 2; qq 1 2]); nB; nC; nD] ["A"; "B"; "C"; "D"]
  [("A", "B"); ("B", "C"); ("A", "C"); ("C", "D")].

(** A, B -> C; C, E -> D; D -> F: several parents, no cycle in the skeleton. *)
Definition poly : bn := mkBN [root "A"; root "B";
   mkN "C" xyz [("A", tf); ("B", tf)] ["A"; "B"]
     (mkArr [3; 2; 2] [qq 1 10; qq 7 10; qq 4 10; qq 1 2; qq 2 10; 0%Qc; qq 3 10; qq 1 4; qq 7 10; qq 3 10; qq 3 10; qq 1 4]);
   root "E"; mkN "D" tf [("C", xyz); ("E", tf)] ["C"; "E"]
     (mkArr [2; 3; 2] [qq 1 10; qq 2 10; qq 3 10; qq 4 10; qq 5 10; qq 6 10;
                       qq 9 10; qq 8 10; qq 7 10; qq 6 10; qq 5 10; qq 4 10]);
   child "F" "D"]
  ["A"; "B"; "C"; "E"; "D"; "F"] [("A", "C"); ("B", "C"); ("C", "D"); ("E", "D"); ("D", "F")].

(** V, Z -> W; W -> X; V -> Y.  The order W, V, Y, Z, X is not perfect, but its tree,
    with the cliques VYZ and WVZX, is in one piece. *)
Definition kite : bn := mkBN [root "V"; root "Z";
   mkN "W" tf [("V", tf); ("Z", tf)] ["V"; "Z"]
     (mkArr [2; 2; 2] [qq 1 10; qq 7 10; qq 4 10; qq 1 2; qq 9 10; qq 3 10; qq 6 10; qq 1 2]);
   child "X" "W"; child "Y" "V"]
  ["V"; "Z"; "W"; "X"; "Y"] [("V", "W"); ("Z", "W"); ("W", "X"); ("V", "Y")].

(** Nodes whose table does not depend on the parents. *)
Definition indifferent (v : string) (ps : list string) (q : Qc) : dnode :=
  mkN v tf (map (fun p => (p, tf)) ps) ps
      (mkArr (repeat 2 (S (length ps))) (repeat q (2 ^ length ps) ++ repeat (1 - q)%Qc (2 ^ length ps))).

(** With order c, d, g, q, a, e, ... the cliques {e, f, s} and {a, w, s} get tables without s. *)
Definition stray : bn := mkBN
  [root "g"; root "a"; root "e"; indifferent "s" ["g"] (qq 1 4); indifferent "c" ["a"; "s"; "g"] (qq 1 2);
   indifferent "d" ["e"; "s"] (qq 1 2); indifferent "q" ["c"; "d"] (qq 1 2); indifferent "r" ["q"] (qq 1 2);
   indifferent "w" ["a"] (qq 1 2); indifferent "f" ["e"] 0%Qc]
  ["g"; "a"; "e"; "s"; "c"; "d"; "q"; "r"; "w"; "f"]
  [("g", "s"); ("a", "c"); ("s", "c"); ("g", "c"); ("e", "d"); ("s", "d"); ("c", "q"); ("d", "q"); ("q", "r"); ("a", "w"); ("e", "f")].

(** The clusters {a, bb, s} and {ab, b, s} get the same key. *)
Definition twin : bn := mkBN
  [root "b"; root "bb"; root "s"; indifferent "a" ["bb"; "s"] (qq 1 4); indifferent "ab" ["b"; "s"] (qq 1 3)]
  ["b"; "bb"; "s"; "a"; "ab"] [("bb", "a"); ("s", "a"); ("b", "ab"); ("s", "ab")].
