(** Text and XML elements, as far as primo2/io.py uses them. *)
From Coq Require Import Ascii.
From Verif Require Import Base.

(** [s.split(c)] for a single character, as in io.py:83. *)
Fixpoint split_at (c : ascii) (s : string) : list string :=
  match s with
  | EmptyString => [""%string]
  | String a s' =>
      if Ascii.eqb a c then ""%string :: split_at c s'
      else match split_at c s' with
           | w :: ws => String a w :: ws
           | [] => [String a ""]
           end
  end.

(** The separator at io.py:83. *)
Definition space : ascii := " "%char.

(** [sep.join(l)], io.py:142. *)
Fixpoint join_with (sep : string) (l : list string) : string :=
  match l with
  | [] => ""
  | [w] => w
  | w :: l' => (w ++ sep ++ join_with sep l')%string
  end.

(** Characters that [str.strip] removes (io.py:83), of the ASCII range. *)
Definition is_space (a : ascii) : bool :=
  let n := nat_of_ascii a in
  (Nat.leb 9 n && Nat.leb n 13) || (Nat.leb 28 n && Nat.leb n 32).

(** [str.lstrip], part of io.py:83. *)
Fixpoint lstrip (s : string) : string :=
  match s with
  | String a s' => if is_space a then lstrip s' else s
  | EmptyString => ""
  end.

(** Reversal, used to strip at the end (io.py:83). *)
Fixpoint rev_string (s acc : string) : string :=
  match s with String a s' => rev_string s' (String a acc) | EmptyString => acc end.

(** [s.strip()].  io.py:83. *)
Definition strip (s : string) : string :=
  rev_string (lstrip (rev_string (lstrip s) "")) "".

(** The elements of lxml.etree: tag, attributes, text before the first child and
    children.  Tails (text after an element) are not modelled: io.py never reads
    them.  io.py:56-89, 111-142. *)
Inductive xml := El (tag : string) (attrs : dict string) (text : option string) (kids : list xml).

(** [e.tag]; compared by the find methods (io.py:59-83). *)
Definition xtag (e : xml) : string := match e with El t _ _ _ => t end.
(** [e.text] (io.py:59-83). *)
Definition xtext (e : xml) : option string := match e with El _ _ x _ => x end.
(** The child elements (io.py:59-83). *)
Definition xkids (e : xml) : list xml := match e with El _ _ _ ks => ks end.

(** [e.findall("./TAG")].  io.py:61, 64, 68, 79. *)
Definition find_all (tag : string) (e : xml) : list xml :=
  filter (fun k => String.eqb tag (xtag k)) (xkids e).

(** [e.find("./TAG")]: None if there is none.  io.py:63, 74, 83. *)
Definition find_child (tag : string) (e : xml) : option xml :=
  match find_all tag e with k :: _ => Some k | [] => None end.

(** The element and its descendants in document order.  io.py:62, 73. *)
Fixpoint preorder (e : xml) : list xml :=
  match e with El _ _ _ ks => e :: flat_map preorder ks end.

(** [e.iter("TAG")].  io.py:62, 73. *)
Definition iter_tag (tag : string) (e : xml) : list xml :=
  filter (fun k => String.eqb tag (xtag k)) (preorder e).

(** [e.find(".//TAG")]: descendants only.  io.py:59. *)
Definition find_desc (tag : string) (e : xml) : option xml :=
  match flat_map (iter_tag tag) (xkids e) with k :: _ => Some k | [] => None end.

(** Assigning [element.text]: lxml refuses control characters.  (It also refuses
    some Unicode code points; the strings of the model are bytes.)  io.py:115, 119, 126-142. *)
Definition legal_char (a : ascii) : bool :=
  let n := nat_of_ascii a in
  Nat.leb 32 n || Nat.eqb n 9 || Nat.eqb n 10 || Nat.eqb n 13.
(** All characters of a text (io.py:115, 119, 126-142). *)
Fixpoint legal_text (s : string) : bool :=
  match s with String a s' => legal_char a && legal_text s' | EmptyString => true end.

(** [tmp = et.SubElement(parent, tag); tmp.text = s].  io.py:114-119, 125-142. *)
Definition leaf (tag : string) (s : option string) : res xml :=
  match s with
  | None => Ok (El tag [] None [])
  | Some t => if legal_text t then Ok (El tag [] (Some t) []) else Err ValueError
  end.

(** Indentation written by [pretty_print=True] (io.py:145). *)
Fixpoint spaces (n : nat) : string :=
  match n with O => "" | S m => String " " (spaces m) end.

(** io.py:145 [et.tostring(root, pretty_print=True)] followed by [et.parse]
    (io.py:56): the elements are the same, except that an empty text is read as
    None and elements that have children but no text receive line breaks and
    indentation.  [d] is the depth. *)
Definition no_text (x : option string) : bool :=
  match x with None | Some EmptyString => true | _ => false end.
(** io.py:145 followed by io.py:56, for an element at depth [d]. *)
Fixpoint reread (d : nat) (e : xml) : xml :=
  match e with
  | El t a x ks =>
      El t a (match ks with
              | [] => if no_text x then None else x
              | _ :: _ => if no_text x then Some (String (ascii_of_nat 10) (spaces (2 * S d))) else x
              end)
         (map (reread (S d)) ks)
  end.
