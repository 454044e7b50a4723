(** What an XMLBIF document says, and what a network read from it should be. *)
From Verif Require Import Base NDArray Node Network NetSpec Xml IO IOSpec.

(** The text of the first child with the tag. *)
Definition first_text (tag : string) (e : xml) : option (option string) :=
  match find_child tag e with Some k => Some (xtext k) | None => None end.

Record vardecl := mkVar { vd_name : string; vd_values : list string; vd_props : list (option string) }.
Definition declares (e : xml) (x : vardecl) : Prop :=
  first_text "NAME" e = Some (Some (vd_name x)) /\
  map xtext (find_all "OUTCOME" e) = map Some (vd_values x) /\
  map xtext (find_all "PROPERTY" e) = vd_props x.

Record definition := mkDef { df_for : string; df_given : list string; df_table : list Qc }.
Definition defines {FT : FloatText} (e : xml) (x : definition) : Prop :=
  first_text "FOR" e = Some (Some (df_for x)) /\
  map xtext (find_all "GIVEN" e) = map Some (df_given x) /\
  exists s, first_text "TABLE" e = Some (Some s) /\ map fread (split_at space (strip s)) = map Some (df_table x).

(** Documents that define no variable twice and list no GIVEN twice. *)
Record orderly (root : xml) : Prop := {
  od_for : NoDup (map (first_text "FOR") (iter_tag "DEFINITION" root));
  od_given : forall e, In e (iter_tag "DEFINITION" root) -> NoDup (map xtext (find_all "GIVEN" e))
}.

(** XMLBIF's order of table entries. *)
Definition laid_out (w : world) (n : node) (x : definition) : Prop :=
  let dims := map (size w) (df_given x) ++ [length (nvalues n)] in
  length (df_table x) = prodn dims /\
  forall ks k, Forall2 lt ks (map (size w) (df_given x)) -> k < length (nvalues n) ->
    nth_error (df_table x) (row_major 0 dims (ks ++ [k])) = Some (aget (tarr (ncpd n)) (k :: rev ks)).

Record read_from {FT : FloatText} (ignore : bool) (root : xml) (w : world) (vs : list vardecl) (ds : list definition) : Prop := {
  rf_vars : Forall2 declares (iter_tag "VARIABLE" root) vs;
  rf_defs : Forall2 defines (iter_tag "DEFINITION" root) ds;
  rf_name : exists k, find_desc "NAME" root = Some k /\ bname (wnet w) = xtext k;
  rf_meta : bmeta (wnet w) = if ignore then [] else map xtext (flat_map (find_all "PROPERTY") (find_all "NETWORK" root));
  rf_graph : dkeys (ggraph (wnet w)) = map vd_name vs;
  rf_lookup : dkeys (lookup (wnet w)) = map vd_name vs;
  rf_node : forall x, In x vs -> exists i n, holds w (vd_name x) i n /\ nvalues n = vd_values x /\
     nmeta n = if ignore then [] else vd_props x;
  rf_table : forall x, In x ds -> exists i n, holds w (df_for x) i n /\ nvalues n <> [] /\ nporder n = rev (df_given x) /\
     nvalid n = true /\ laid_out w n x;
  rf_edges : forall u v, edge w u v <-> exists x, In x ds /\ df_for x = v /\ In u (df_given x);
  rf_rest : forall v i n, holds w v i n -> ~ In v (map df_for ds) -> nporder n = [] /\ nvalid n = false /\
     ncpd n = TArr false (np_zeros (right_shape w n));
  rf_float : forall v i n, holds w v i n -> exists a, ncpd n = TArr false a
}.
