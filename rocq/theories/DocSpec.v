(** What can be wrong with a file, and which exception says so. *)
From Verif Require Import Base NDArray Node Network Dynamic Xml IO Files IOSpec ParseSpec.

(** ** Documents *)
(** A VARIABLE element, after variables called [before]. *)
Inductive variable_fault (before : list string) (e : xml) : exc -> Prop :=
| V_no_name : first_text "NAME" e = None -> variable_fault before e AttributeError
| V_empty : first_text "NAME" e <> None -> first_text "NAME" e = Some None \/ In None (map xtext (find_all "OUTCOME" e)) ->
    variable_fault before e NoneText
| V_twice nm : first_text "NAME" e = Some (Some nm) -> ~ In None (map xtext (find_all "OUTCOME" e)) -> In nm before ->
    variable_fault before e ValueError.

Definition number_of_values (vs : list vardecl) (v : string) : nat :=
  match find (fun x => String.eqb v (vd_name x)) vs with Some x => length (vd_values x) | None => 0 end.
Definition entries (vs : list vardecl) (l : list string) : nat := fold_right (fun v k => number_of_values vs v * k) 1 l.

Definition declared (vs : list vardecl) (g : option string) : Prop := exists s, g = Some s /\ In s (map vd_name vs).

(** A DEFINITION element, after the variables [vs]: the GIVEN elements are looked up last first. *)
Inductive definition_fault {FT : FloatText} (vs : list vardecl) (e : xml) : exc -> Prop :=
| F_no_for : first_text "FOR" e = None -> definition_fault vs e AttributeError
| F_for v : first_text "FOR" e = Some v -> ~ declared vs v -> definition_fault vs e PlainException
| F_given v : first_text "FOR" e = Some v -> declared vs v -> (exists g, In g (map xtext (find_all "GIVEN" e)) /\ ~ declared vs g) ->
    definition_fault vs e PlainException
| F_no_table v : first_text "FOR" e = Some v -> declared vs v -> (forall g, In g (map xtext (find_all "GIVEN" e)) -> declared vs g) ->
    first_text "TABLE" e = None \/ first_text "TABLE" e = Some None -> definition_fault vs e AttributeError
| F_table v gs s : first_text "FOR" e = Some (Some v) -> In v (map vd_name vs) ->
    map xtext (find_all "GIVEN" e) = map Some gs -> incl gs (map vd_name vs) -> first_text "TABLE" e = Some (Some s) ->
    ~ (exists l, map fread (split_at space (strip s)) = map Some l /\ length l = entries vs (v :: gs)) ->
    definition_fault vs e ValueError.

Definition well_defined {FT : FloatText} (vs : list vardecl) (e : xml) : Prop :=
  exists x, defines e x /\ In (df_for x) (map vd_name vs) /\ incl (df_given x) (map vd_name vs) /\
    length (df_table x) = entries vs (df_for x :: df_given x).

(** The first fault of a document: all VARIABLE elements are read before the DEFINITION elements. *)
Inductive document_fault {FT : FloatText} (root : xml) : exc -> Prop :=
| D_no_name : find_desc "NAME" root = None -> document_fault root AttributeError
| D_variable pre x post vs e : find_desc "NAME" root <> None -> iter_tag "VARIABLE" root = pre ++ x :: post ->
    Forall2 declares pre vs -> NoDup (map vd_name vs) -> variable_fault (map vd_name vs) x e -> document_fault root e
| D_definition pre x post vs e : find_desc "NAME" root <> None -> Forall2 declares (iter_tag "VARIABLE" root) vs -> NoDup (map vd_name vs) ->
    iter_tag "DEFINITION" root = pre ++ x :: post -> Forall (well_defined vs) pre -> definition_fault vs x e -> document_fault root e.

(** ** Files *)
Definition a_directory (f : fs) (l : loc) : Prop := l = [] \/ In l (fdirs f).

(** Following a path: what is passed through is a directory. *)
Inductive leads (f : fs) : loc -> list string -> loc -> Prop :=
| L_here a : leads f a [] a
| L_stay a c cs l : a_directory f a -> c = ""%string \/ c = "."%string -> leads f a cs l -> leads f a (c :: cs) l
| L_up a cs l : a_directory f a -> leads f (removelast a) cs l -> leads f a (".."%string :: cs) l
| L_down a c cs l : a_directory f a -> c <> ""%string -> c <> "."%string -> c <> ".."%string -> leads f (a ++ [c]) cs l -> leads f a (c :: cs) l.
Definition path_to (f : fs) (p : string) (l : loc) : Prop := leads f (if isabs p then [] else fcwd f) (split_at slash p) l.

Definition stored (f : fs) (l : loc) (c : content) : Prop := exists pre post, ffiles f = pre ++ (l, c) :: post /\ ~ In l (map fst pre).
Definition file_at (f : fs) (p : string) (c : content) : Prop := exists l, path_to f p l /\ ~ a_directory f l /\ stored f l c.

(** What is wrong with a network file. *)
Inductive xmlbif_fault {FT : FloatText} (f : fs) (p : string) : exc -> Prop :=
| X_missing : ~ (exists c, file_at f p c) -> xmlbif_fault f p FileNotFoundError
| X_other a b ts : file_at f p (Conf a b ts) -> xmlbif_fault f p ValueError
| X_document t e : file_at f p (Doc t) -> document_fault (reread 0 t) e -> xmlbif_fault f p e.

(** The names that a sound network file declares. *)
Definition declares_names (f : fs) (p : string) (l : list string) : Prop :=
  exists t vs, file_at f p (Doc t) /\ Forall2 declares (iter_tag "VARIABLE" (reread 0 t)) vs /\ l = map vd_name vs.

(** Transitions, in the order in which add_transition looks. *)
Inductive transition_fault (n0 n2 : list string) (t : string * string) : exc -> Prop :=
| T_first : ~ In (snd t) n0 -> transition_fault n0 n2 t StructureError
| T_second : In (snd t) n0 -> ~ In (snd t) n2 -> transition_fault n0 n2 t KeyError
| T_third : In (snd t) n0 -> In (snd t) n2 -> ~ In (fst t) n2 -> transition_fault n0 n2 t StructureError.

(** What is wrong with a specification file, or with the files it names. *)
Inductive spec_fault {FT : FloatText} (f : fs) (p : string) : exc -> Prop :=
| S_missing : ~ (exists c, file_at f p c) -> spec_fault f p FileNotFoundError
| S_other t : file_at f p (Doc t) -> spec_fault f p ValueError
| S_b0 a b ts e : file_at f p (Conf a b ts) -> xmlbif_fault f (spec_path f p a) e -> spec_fault f p e
| S_two a b ts e : file_at f p (Conf a b ts) -> (forall e', ~ xmlbif_fault f (spec_path f p a) e') ->
    xmlbif_fault f (spec_path f p b) e -> spec_fault f p e
| S_transition a b ts n0 n2 pre t post e : file_at f p (Conf a b ts) ->
    (forall e', ~ xmlbif_fault f (spec_path f p a) e') -> (forall e', ~ xmlbif_fault f (spec_path f p b) e') ->
    declares_names f (spec_path f p a) n0 -> declares_names f (spec_path f p b) n2 ->
    ts = pre ++ t :: post -> (forall u e', In u pre -> ~ transition_fault n0 n2 u e') -> transition_fault n0 n2 t e -> spec_fault f p e.

(** No variable is defined twice in a network file, or in those that a specification names. *)
Definition orderly_file (f : fs) (p : string) : Prop := forall t, file_at f p (Doc t) -> orderly (reread 0 t).
Definition orderly_spec (f : fs) (p : string) : Prop :=
  forall a b ts, file_at f p (Conf a b ts) -> orderly_file f (spec_path f p a) /\ orderly_file f (spec_path f p b).

(** ** Writing *)
Definition writable (f : fs) (p : string) : Prop := exists l, path_to f p l /\ ~ a_directory f l.
(** The exception of the first condition that does not hold. *)
Definition first_broken (l : list (Prop * exc)) (e : exc) : Prop :=
  exists pre P post, l = pre ++ (P, e) :: post /\ Forall (fun c => fst c) pre /\ ~ P.
(** What writing a network needs, and what writing a dynamic network needs, in the order in which it is needed. *)
Definition xmlbif_conditions (ignore : bool) (w : world) (p : string) (f : fs) : list (Prop * exc) :=
  [(printable_net (negb ignore) w, ValueError); (writable f p, FileNotFoundError)].
Definition spec_conditions (ignore : bool) (h : heap) (d : dbnet) (path name : string) (f : fs) : list (Prop * exc) :=
  [(printable_net (negb ignore) (mkW h (db0 d)), ValueError); (writable f (path ++ name ++ "-b0.xbif"), FileNotFoundError);
   (printable_net (negb ignore) (mkW h (dtwo d)), ValueError); (writable f (path ++ name ++ "-2tbn.xbif"), FileNotFoundError);
   (writable f (path ++ name ++ ".conf"), FileNotFoundError)].
