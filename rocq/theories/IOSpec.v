(** What writing a network to a file and reading it back should give. *)
From Coq Require Import Ascii.
From Verif Require Import Base NDArray Node Network NetSpec.

(** Text that XML can hold. *)
Definition printable (s : string) : Prop :=
  Forall (fun a => 32 <= nat_of_ascii a \/ nat_of_ascii a = 9 \/ nat_of_ascii a = 10 \/ nat_of_ascii a = 13)
         (list_ascii_of_string s).
Definition printable_or_none (x : option string) : Prop := match x with Some s => printable s | None => True end.

(** A network whose names, values and (if [meta] is set) properties XML can hold. *)
Record printable_net (meta : bool) (w : world) : Prop := {
  pn_name : printable_or_none (bname (wnet w));
  pn_meta : meta = true -> Forall printable_or_none (bmeta (wnet w));
  pn_node : forall v i n, holds w v i n ->
     printable v /\ Forall printable (nvalues n) /\ (meta = true -> Forall printable_or_none (nmeta n))
}.

(** Nodes have names and values, and values are not empty strings. *)
Definition filled (w : world) : Prop :=
  forall v i n, holds w v i n -> v <> ""%string /\ nvalues n <> [] /\ Forall (fun x => x <> ""%string) (nvalues n).

(** Empty text cannot be told from no text. *)
Definition back (x : option string) : option string :=
  match x with Some EmptyString => None | _ => x end.

(** The network of [w'] is that of [w], node by node: same order, values, parent
    orders, tables (as floating point numbers) and edges; properties only if
    [meta] is set. *)
Record reloaded (meta : bool) (w w' : world) : Prop := {
  rl_name : bname (wnet w') = back (bname (wnet w));
  rl_meta : bmeta (wnet w') = if meta then map back (bmeta (wnet w)) else [];
  rl_graph : dkeys (ggraph (wnet w')) = dkeys (ggraph (wnet w));
  rl_lookup : dkeys (lookup (wnet w')) = dkeys (ggraph (wnet w));
  rl_node : forall v i n, holds w v i n -> exists i' n', holds w' v i' n' /\
     nkind n' = KDiscrete /\ nvalues n' = nvalues n /\ nporder n' = nporder n /\
     ncpd n' = TArr false (tarr (ncpd n)) /\ nvalid n' = true /\
     nmeta n' = if meta then map back (nmeta n) else [];
  rl_edges : forall u v, edge w' u v <-> edge w u v;
  rl_consistent : consistent w';
  rl_fitting : fitting w'
}.

(** Nothing is lost if there is a name and no empty property. *)
Definition named_net (w : world) : Prop :=
  bname (wnet w) <> Some ""%string /\ ~ In (Some ""%string) (bmeta (wnet w)) /\
  forall v i n, holds w v i n -> ~ In (Some ""%string) (nmeta n).

(** XMLBIF's order of table entries: the GIVEN variables as listed, the first one
    varying slowest, and the FOR variable varying fastest. *)
Fixpoint row_major (acc : nat) (dims ix : list nat) : nat :=
  match dims, ix with
  | d :: dims', k :: ix' => row_major (acc * d + k) dims' ix'
  | _, _ => acc
  end.
