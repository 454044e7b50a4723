(** Model of primo2/io.py, class XMLBIFParser. *)
From Verif Require Import Base NDArray Node Network Xml.

(** [str(e)] of a table element (io.py:142) and [float(s)] (io.py:83).  CPython
    prints floats so that they are read back exactly.  [fprint true] prints
    elements of integer arrays, which are read back as floats of the same value
    (as long as they are below 2^53).  Tables of dtypes other than integers and
    floats are not modelled, nor are inf and nan.  All theorems quantify over
    these functions. *)
Class FloatText := {
  fprint : bool -> Qc -> string;
  fread : string -> option Qc;
  fread_fprint : forall int q, fread (fprint int q) = Some q;
  fprint_filled : forall int q, fprint int q <> ""%string;
  fprint_plain : forall int q, Forall (fun a => 33 <= Ascii.nat_of_ascii a) (list_ascii_of_string (fprint int q))
}.

Section Text.
Context {FT : FloatText}.

(** io.py:117-119, 131-133. *)
Definition write_props (ignore : bool) (meta : list (option string)) : res (list xml) :=
  if ignore then Ok [] else mapM (leaf "PROPERTY") meta.

(** Whether [str(e)] prints an integer (io.py:142); [cpd] is the int 1 at first (nodes.py:36). *)
Definition int_table (t : table) : bool := match t with TArr int _ => int | TNum _ => true end.

(** io.py:121-142: the two elements of a node. *)
Definition write_node (ignore : bool) (n : node) : res (list xml) :=
  let* nm := leaf "NAME" (Some (nname n)) in
  let* vs := values_attr n in
  let* outs := mapM (fun v => leaf "OUTCOME" (Some v)) vs in
  let* props := write_props ignore (nmeta n) in
  let* f := leaf "FOR" (Some (nname n)) in
  let* gs := mapM (fun p => leaf "GIVEN" (Some p)) (rev (nporder n)) in
  let* t := leaf "TABLE" (Some (join_with " " (map (fprint (int_table (ncpd n))) (ravel_F (tarr (ncpd n)))))) in
  Ok [El "VARIABLE" [("TYPE", "nature")] None (nm :: outs ++ props);
      El "DEFINITION" [] None (f :: gs ++ [t])].

(** io.py:94-142 [XMLBIFParser.write] up to the tree; names and values other than
    strings (TypeError) are not modelled. *)
Definition write_tree (ignore : bool) (w : world) : res xml :=
  let* nm := leaf "NAME" (bname (wnet w)) in
  let* props := write_props ignore (bmeta (wnet w)) in
  let* es := mapM (fun p => write_node ignore (deref (whp w) (snd p))) (ggraph (wnet w)) in
  Ok (El "BIF" [("VERSION", "0.3")] None [El "NETWORK" [] None (nm :: props ++ concat es)]).

(** [e.find("./TAG").text].  io.py:63, 74, 83. *)
Definition child_text (tag : string) (e : xml) : res (option string) :=
  match find_child tag e with Some k => Ok (xtext k) | None => Err AttributeError end.

(** None is passed on by io.py:63-65; the model has strings only. *)
Definition string_text (x : option string) : res string :=
  match x with Some s => Ok s | None => Err NoneText end.

(** io.py:62-71: one VARIABLE element. *)
Definition parse_variable (ignore : bool) (w : world) (e : xml) : call :=
  match (let* x := child_text "NAME" e in
         let* nm := string_text x in
         let* vs := mapM (fun k => string_text (xtext k)) (find_all "OUTCOME" e) in
         Ok (nm, vs)) with
  | Err x => raise x w
  | Ok (nm, vs) =>
      let n := new_node KDiscrete nm vs in
      let n' := if ignore then n else with_meta n (map xtext (find_all "PROPERTY" e)) in
      add_node (with_heap w (whp w ++ [n'])) (length (whp w))
  end.

(** io.py:79-81.  No node is called None, see [parse_variable]: networks.py:60 is false. *)
Fixpoint parse_edges (cur : string) (gs : list (option string)) (w : world) : call :=
  match gs with
  | [] => ret w
  | g :: gs' =>
      match g with
      | None => raise PlainException w
      | Some p => andthen (add_edge w p cur) (parse_edges cur gs')
      end
  end.

(** io.py:83. *)
Definition parse_table (e : xml) : res (list Qc) :=
  let* x := child_text "TABLE" e in
  match x with
  | None => Err AttributeError
  | Some s => mapM (fun t => match fread t with Some q => Ok q | None => Err ValueError end)
                   (split_at space (strip s))
  end.

(** io.py:83-89, for the node [i]. *)
Definition parse_cpd (e : xml) (i : oid) (w : world) : call :=
  match (let* n := hget (whp w) i in
         let* l := parse_table e in
         let* pv := mapM (parent_values (whp w) n) (nporder n) in
         reshape_F (length (nvalues n) :: map (@length string) pv) l) with
  | Err x => raise x w
  | Ok a => on_node w i (fun n => set_cpd n false a)
  end.

(** io.py:73-89: one DEFINITION element.  [get_node(None)] raises (networks.py:68-73). *)
Definition parse_definition (w : world) (e : xml) : call :=
  match child_text "FOR" e with
  | Err x => raise x w
  | Ok None => raise PlainException w
  | Ok (Some cur) =>
      match dget cur (lookup (wnet w)) with
      | None => raise PlainException w
      | Some i => andthen (parse_edges cur (rev (map xtext (find_all "GIVEN" e))) w) (parse_cpd e i)
      end
  end.

(** The loops io.py:62 and 73. *)
Fixpoint each_elem (f : world -> xml -> call) (l : list xml) (w : world) : call :=
  match l with
  | [] => ret w
  | e :: l' => andthen (f w e) (each_elem f l')
  end.

(** io.py:59-61 *)
Definition parse_head (ignore : bool) (root : xml) : res net :=
  match find_desc "NAME" root with
  | None => Err AttributeError
  | Some k => Ok (mkNet [] [] [] (xtext k)
      (if ignore then [] else map xtext (flat_map (find_all "PROPERTY") (find_all "NETWORK" root))))
  end.

(** io.py:34-91 [XMLBIFParser.parse] on the parsed element tree; the new objects
    are added to the heap.  The second component is what the call returns. *)
Definition parse_tree (ignore : bool) (h : heap) (root : xml) : heap * res net :=
  match parse_head ignore root with
  | Err x => (h, Err x)
  | Ok g =>
      match andthen (each_elem (parse_variable ignore) (iter_tag "VARIABLE" root) (mkW h g))
                    (each_elem parse_definition (iter_tag "DEFINITION" root)) with
      | (w, Ok _) => (whp w, Ok (wnet w))
      | (w, Err x) => (whp w, Err x)
      end
  end.

End Text.
