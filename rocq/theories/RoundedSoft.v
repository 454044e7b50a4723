(** FactorTree.set_evidence with softPosteriors=True (exact.py:293-337) in rounded
    arithmetic.  The functions of Factor.v and JoinTree.v with the operations as arguments;
    [posteriors_by_exact] (RoundedSoftTop.v) shows that with the exact operations they are
    those functions. *)
From Verif Require Import Base NDArray Factor Exact Order JoinTree Rounded RoundedTree.

(** factor.py:486-505 with the quotient and the product as arguments. *)
Definition soft_ratio_by (qdiv qmul : Qc -> Qc -> Qc) (evidence old : list Qc) : res (list Qc) :=
  match argmax evidence with
  | None => Err ValueError
  | Some (ref, refEv) =>
      mapM (fun i =>
        if Nat.eqb i ref then Ok 1%Qc
        else match nth_error old i with
             | None => Err IndexError                      (* 501 *)
             | Some oi =>
                 if qeqb oi 0%Qc then Ok 0%Qc
                 else match nth_error old ref with
                      | None => Err IndexError             (* 505 *)
                      | Some oref => if qeqb refEv 0%Qc then Err NonFinite
                                     else Ok (qdiv (qmul (qdiv (nth i evidence 0%Qc) oi) oref) refEv)
                      end
             end) (seq 0 (length evidence))
  end.

(** factor.py:423-509 [as_evidence] with the computation of the ratios as argument. *)
Definition as_evidence_by (ratio : list Qc -> list Qc -> res (list Qc)) (variable : string) (values : list string) (e : evid)
    (oldMarginals : option (list Qc)) : res factor :=
  match e, oldMarginals with
  | Soft q, Some old =>
      if Nat.eqb (length q) (length values) then
        let* r := ratio q old in Ok (mkF (mkArr [length q] r) [variable] [(variable, values)])
      else Err ValueError                                  (* 476-479 *)
  | _, _ => as_evidence variable values e None
  end.

Section Algorithms.
Context {SO : SetOrder}.
Variables (mul : factor -> factor -> res factor) (marg : factor -> string -> res factor)
  (inv : factor -> res factor) (norm : factor -> factor) (ratio : list Qc -> list Qc -> res (list Qc)).

(** exact.py:324-325. *)
Fixpoint old_marginals_by (vs : list string) (t : jtree) : jtree * res (dict (list Qc)) :=
  match vs with
  | [] => (t, Ok [])
  | v :: vs' => match tmarginals_by mul marg inv norm t [v] with
                | (t1, Err e) => (t1, Err e)
                | (t1, Ok f) => match old_marginals_by vs' t1 with
                                | (t2, Ok d) => (t2, Ok ((v, data (pot f)) :: d))
                                | (t2, Err e) => (t2, Err e)
                                end
                end
  end.

(** exact.py:328-336, one evidence variable. *)
Definition add_posterior_by (b : bn) (old : dict (list Qc)) (p : string * evid) (t : jtree) : jtree * res unit :=
  let m := let* n := get_node b (fst p) in
           let* ef := as_evidence_by ratio (fst p) (dn_values n) (snd p) (dget (fst p) old) in
           assign_evidence_by mul (fst p) ef (tnodes t) in
  match m with
  | Ok ns => (mkT ns (tadj t) (tedges t) (tvalid t), Ok tt)
  | Err e => (t, Err e)
  end.

(** exact.py:293-337 [set_evidence] with softPosteriors=True. *)
Definition set_posteriors_by (b : bn) (ev : evidence) (t : jtree) : jtree * res unit :=
  match reset_factors_by mul b t with                      (* 317 *)
  | (t1, Err e) => (t1, Err e)
  | (t1, Ok _) =>
      match calculate_messages_by mul marg inv t1 with     (* 323 *)
      | (t2, Err e) => (t2, Err e)
      | (t2, Ok _) =>
          match old_marginals_by (dkeys ev) t2 with
          | (t3, Err e) => (t3, Err e)
          | (t3, Ok old) =>
              match reset_factors_by mul b t3 with         (* 326 *)
              | (t4, Err e) => (t4, Err e)
              | (t4, Ok _) => match each (add_posterior_by b old) ev t4 with
                              | (t5, Ok _) => calculate_messages_by mul marg inv t5
                              | (t5, Err e) => (t5, Err e)
                              end
              end
          end
      end
  end.
End Algorithms.

Section Rounded.
Context {RD : Rounding} {AD : Adding} {SO : SetOrder}.
(** factor.py:486-505 in rounded arithmetic: three operations for each number. *)
Definition rounded_ratio : list Qc -> list Qc -> res (list Qc) :=
  soft_ratio_by (fun x y => rnd (x / y)%Qc) (fun x y => rnd (x * y)%Qc).
(** exact.py:293-337 with softPosteriors=True in rounded arithmetic. *)
Definition rounded_posteriors : bn -> evidence -> jtree -> jtree * res unit :=
  set_posteriors_by rmul rmarg rinvert rnormalize rounded_ratio.
End Rounded.
