(** Networks and documents that are saved as they were loaded. *)
From Verif Require Import Base NDArray Node Network NetSpec Xml IOSpec.

(** All tables are arrays of floats. *)
Definition float_tables (w : world) : Prop := forall v i n, holds w v i n -> exists a, ncpd n = TArr false a.

(** Documents as an XML parser delivers them (legal characters, no text instead of an empty
    one), in which every variable has an outcome. *)
Record proper (root : xml) : Prop := {
  pr_text : forall e, In e (preorder root) -> printable_or_none (xtext e) /\ xtext e <> Some ""%string;
  pr_values : forall e, In e (iter_tag "VARIABLE" root) -> find_all "OUTCOME" e <> []
}.
