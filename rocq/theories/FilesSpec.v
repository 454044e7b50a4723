(** File systems, and what writing and reading a dynamic network should give. *)
From Coq Require Import Ascii.
From Verif Require Import Base Node Network NetSpec Dynamic Xml Files IOSpec.

(** A name that can stand in a directory. *)
Definition clean (c : string) : Prop :=
  c <> ""%string /\ c <> "."%string /\ c <> ".."%string /\ ~ In slash (list_ascii_of_string c).

(** The place a path leads to, if all the directories exist and none is a link. *)
Fixpoint follow (at_ : list string) (comps : list string) : list string :=
  match comps with
  | [] => at_
  | c :: cs => if String.eqb c "" || String.eqb c "." then follow at_ cs
               else if String.eqb c ".." then follow (removelast at_) cs else follow (at_ ++ [c]) cs
  end.
Definition place (at_ : list string) (p : string) : list string := follow (if isabs p then [] else at_) (split_at slash p).

(** Paths without detours: steps up, not from the root, and then names. *)
Definition normal_comps (abs : bool) (l : list string) : Prop :=
  exists n names, l = repeat ".."%string n ++ names /\ (abs = true -> n = 0) /\ Forall clean names.
Definition normal (p : string) : Prop :=
  p = "."%string \/ exists k l, p = (k ++ join_with "/" l)%string /\
    (k = ""%string /\ l <> [] /\ normal_comps false l \/ (k = "/" \/ k = "//")%string /\ normal_comps true l).

Record good_fs (f : fs) : Prop := {
  gf_up : forall l c, is_dir f (l ++ [c]) = true -> is_dir f l = true;
  gf_clean : forall l, is_dir f l = true -> Forall clean l;
  gf_cwd : is_dir f (fcwd f) = true
}.

(** [path] is a directory in the form that DBNSpec.write needs: the empty string
    (the working directory), or ending with a slash. *)
Definition directory (f : fs) (path : string) (l : loc) : Prop :=
  (path = ""%string \/ exists p, path = (p ++ "/")%string) /\ resolve f path = Some l.

(** The names of the three files do not belong to directories. *)
Definition suffixes : list string := ["-b0.xbif"; "-2tbn.xbif"; ".conf"].
Definition targets (l : loc) (name : string) : list loc := map (fun s => l ++ [(name ++ s)%string]) suffixes.
Definition free_targets (f : fs) (l : loc) (name : string) : Prop :=
  Forall (fun t => is_dir f t = false) (targets l name).

(** Transitions lead from a node of the 2-TBN to a node of both networks. *)
Definition lawful (d : dbnet) : Prop :=
  forall v p, In (v, p) (dtrans d) -> In p (dkeys (lookup (db0 d))) /\ In p (dkeys (lookup (dtwo d))) /\
    In v (dkeys (lookup (dtwo d))).

Record reloaded_dbn (meta : bool) (h : heap) (d : dbnet) (h' : heap) (d' : dbnet) : Prop := {
  rd_b0 : reloaded meta (mkW h (db0 d)) (mkW h' (db0 d'));
  rd_two : reloaded meta (mkW h (dtwo d)) (mkW h' (dtwo d'));
  rd_trans : dtrans d' = dtrans d
}.
