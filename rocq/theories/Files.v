(** Model of primo2/io.py, class DBNSpec, and of the files the module reads and
    writes. *)
From Coq Require Import Ascii.
From Verif Require Import Base NDArray Node Network Dynamic Xml IO.

(** ** POSIX paths (module posixpath of the Python library) *)
(** Used at io.py:190-201. *)
Definition slash : ascii := "/"%char.

(** [os.path.isabs].  io.py:191, 197. *)
Definition isabs (p : string) : bool :=
  match p with String a _ => Ascii.eqb a slash | EmptyString => false end.

(** [os.path.normpath]: the loop over the components; [acc] is [new_comps], last
    component first.  io.py:190. *)
Definition is_dotdot (l : list string) : bool := match l with c :: _ => String.eqb c ".." | [] => false end.
(** [os.path.normpath], part of [abspath] (io.py:190). *)
Fixpoint norm_comps (abs : bool) (acc comps : list string) : list string :=
  match comps with
  | [] => rev acc
  | c :: cs =>
      if String.eqb c "" || String.eqb c "." then norm_comps abs acc cs
      else if negb (String.eqb c "..") || (negb abs && match acc with [] => true | _ => false end) || is_dotdot acc
      then norm_comps abs (c :: acc) cs
      else norm_comps abs (tl acc) cs
  end.

(** Two leading slashes are kept, three or more become one.  io.py:190. *)
Definition leading (p : string) : string :=
  match p with
  | String a (String b r) =>
      if Ascii.eqb a slash then
        if Ascii.eqb b slash && negb (isabs r) then "//" else "/"
      else ""
  | String a EmptyString => if Ascii.eqb a slash then "/" else ""
  | EmptyString => ""
  end.
(** [os.path.normpath], part of [abspath] (io.py:190). *)
Definition normpath (p : string) : string :=
  if String.eqb p "" then "." else
  let r := (leading p ++ join_with "/" (norm_comps (isabs p) [] (split_at slash p)))%string in
  if String.eqb r "" then "." else r.

(** [path.endswith('/')], part of [os.path.join] (io.py:190). *)
Fixpoint last_char (s : string) : option ascii :=
  match s with
  | EmptyString => None
  | String a EmptyString => Some a
  | String _ s' => last_char s'
  end.

(** [os.path.join(a, b)].  Part of [abspath] (io.py:190). *)
Definition path_join (a b : string) : string :=
  if isabs b then b
  else match last_char a with
       | None => b
       | Some c => if Ascii.eqb c slash then (a ++ b)%string else (a ++ "/" ++ b)%string
       end.

(** [os.path.dirname].  io.py:190. *)
Fixpoint all_slashes (s : string) : bool :=
  match s with String a s' => Ascii.eqb a slash && all_slashes s' | EmptyString => true end.
(** [rstrip('/')] on the reversed text, part of [os.path.dirname] (io.py:190). *)
Fixpoint drop_slashes (s : string) : string :=
  match s with String a s' => if Ascii.eqb a slash then drop_slashes s' else s | EmptyString => "" end.
(** [os.path.dirname] (io.py:190). *)
Definition dirname (p : string) : string :=
  let hd := match removelast (split_at slash p) with
            | [] => ""%string
            | cs => (join_with "/" cs ++ "/")%string
            end in
  if all_slashes hd then hd else rev_string (drop_slashes (rev_string hd "")) "".

(** ** Files *)
(** What a file holds: an XML document (io.py:145) or a specification
    (io.py:247-264).  JSON documents of another form (KeyError, TypeError, ...)
    are not modelled. *)
Inductive content :=
| Doc (t : xml)
| Conf (b0 tbn : string) (transitions : list (string * string)).

(** A file is at the end of a path from the root.  No links, no permissions.
    io.py:56, 144, 186, 262. *)
Definition loc := list string.
(** The files and directories that io.py:56, 144, 186, 262 read and write, and the working directory. *)
Record fs := mkFs {
  fdirs : list loc;
  ffiles : list (loc * content);
  fcwd : loc
}.
(** Equality of locations (io.py:56, 144, 186, 262). *)
Definition loc_eq (a b : loc) : bool := if list_eq_dec string_dec a b then true else false.
(** Whether there is a directory (io.py:144, 262); the root always exists. *)
Definition is_dir (f : fs) (l : loc) : bool :=
  match l with [] => true | _ :: _ => existsb (loc_eq l) (fdirs f) end.

(** How the operating system follows a path: what is passed through must be a
    directory.  io.py:56, 144, 186, 262. *)
Fixpoint walk (f : fs) (at_ : loc) (comps : list string) : option loc :=
  match comps with
  | [] => Some at_
  | c :: cs =>
      if is_dir f at_ then
        if String.eqb c "" || String.eqb c "." then walk f at_ cs
        else if String.eqb c ".." then walk f (removelast at_) cs
        else walk f (at_ ++ [c]) cs
      else None
  end.
(** The location a path denotes (io.py:56, 144, 186, 262). *)
Definition resolve (f : fs) (p : string) : option loc :=
  walk f (if isabs p then [] else fcwd f) (split_at slash p).

(** The content of a file (io.py:56, 186). *)
Fixpoint file_get (l : loc) (d : list (loc * content)) : option content :=
  match d with
  | [] => None
  | (k, c) :: d' => if loc_eq l k then Some c else file_get l d'
  end.
(** Creating or overwriting a file (io.py:144, 262). *)
Fixpoint file_put (l : loc) (c : content) (d : list (loc * content)) : list (loc * content) :=
  match d with
  | [] => [(l, c)]
  | (k, c') :: d' => if loc_eq l k then (k, c) :: d' else (k, c') :: file_put l c d'
  end.

(** [open(p)] for reading and for writing; FileNotFoundError stands for all
    errors of the operating system.  io.py:56, 186. *)
Definition read_file (f : fs) (p : string) : res content :=
  match resolve f p with
  | Some l => match file_get l (ffiles f) with
              | Some c => if is_dir f l then Err FileNotFoundError else Ok c
              | None => Err FileNotFoundError
              end
  | None => Err FileNotFoundError
  end.
(** [open(p, "w")] and writing (io.py:144-145, 262-264). *)
Definition write_file (f : fs) (p : string) (c : content) : fs * res unit :=
  match resolve f p with
  | Some l => if is_dir f l then (f, Err FileNotFoundError)
              else (mkFs (fdirs f) (file_put l c (ffiles f)) (fcwd f), Ok tt)
  | None => (f, Err FileNotFoundError)
  end.

(** [os.getcwd()], [os.path.abspath].  Part of io.py:190. *)
Definition getcwd (f : fs) : string := ("/" ++ join_with "/" (fcwd f))%string.
(** [os.path.abspath] (io.py:190). *)
Definition abspath (f : fs) (p : string) : string :=
  normpath (if isabs p then p else path_join (getcwd f) p).

Section Text.
Context {FT : FloatText}.

(** io.py:94-145 [XMLBIFParser.write]. *)
Definition xmlbif_write (ignore : bool) (w : world) (filename : string) (f : fs) : fs * res unit :=
  match write_tree ignore w with
  | Err e => (f, Err e)
  | Ok t => write_file f filename (Doc t)
  end.

(** io.py:34-91 [XMLBIFParser.parse]; ValueError stands for lxml's
    XMLSyntaxError. *)
Definition xmlbif_parse (ignore : bool) (h : heap) (filename : string) (f : fs) : heap * res net :=
  match read_file f filename with
  | Err e => (h, Err e)
  | Ok (Conf _ _ _) => (h, Err ValueError)
  | Ok (Doc t) => parse_tree ignore h (reread 0 t)
  end.

(** io.py:209-264 [DBNSpec.write].  Transitions that hold node objects instead of
    names (TypeError in json.dump) are not modelled. *)
Definition dbn_write (ignore : bool) (h : heap) (d : dbnet) (path name : string) (f : fs) : fs * res unit :=
  match xmlbif_write ignore (mkW h (db0 d)) (path ++ name ++ "-b0.xbif")%string f with
  | (f1, Err e) => (f1, Err e)
  | (f1, Ok _) =>
      match xmlbif_write ignore (mkW h (dtwo d)) (path ++ name ++ "-2tbn.xbif")%string f1 with
      | (f2, Err e) => (f2, Err e)
      | (f2, Ok _) =>
          write_file f2 (path ++ name ++ ".conf")%string
            (Conf (name ++ "-b0.xbif")%string (name ++ "-2tbn.xbif")%string (dtrans d))
      end
  end.

(** io.py:190-202: where the networks of a specification are. *)
Definition spec_path (f : fs) (filename p : string) : string :=
  if isabs p then p else (dirname (abspath f filename) ++ "/" ++ p)%string.

(** io.py:150-206 [DBNSpec.parse]; ValueError stands for JSONDecodeError. *)
Definition dbn_parse (ignore : bool) (h : heap) (filename : string) (f : fs) : heap * res dbnet :=
  match read_file f filename with
  | Err e => (h, Err e)
  | Ok (Doc _) => (h, Err ValueError)
  | Ok (Conf p0 p2 ts) =>
      match xmlbif_parse ignore h (spec_path f filename p0) f with
      | (h1, Err e) => (h1, Err e)
      | (h1, Ok g0) =>
          match xmlbif_parse ignore h1 (spec_path f filename p2) f with
          | (h2, Err e) => (h2, Err e)
          | (h2, Ok g2) =>
              (h2, let* d := new_dbn g0 g2 [] in
                   match add_transitions d ts with
                   | (d', Ok _) => Ok d'
                   | (_, Err e) => Err e
                   end)
          end
      end
  end.

End Text.
