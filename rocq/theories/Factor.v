(** Model of primo2/inference/factor.py (class Factor). *)
From Verif Require Import Base NDArray.

(** factor.py:34-41 [Factor.__init__]: potentials, variableOrder, values.
    The values dict maps a variable to its tuple of value names. *)
Record factor := mkF {
  pot : ndarray;
  vorder : list string;
  fvals : dict (list string)
}.

(** factor.py:45-61 [__contains__]. *)
Definition fcontains (v : string) (f : factor) : bool := dmem v (fvals f).

(** factor.py:238-255 [copy]: a fresh object; in this value model the identity
    (FactorHeap.v models the references). *)
Definition fcopy (f : factor) : factor := f.

(** [for var in extra_vars: res.values[var] = tuple(other.values[var])],
    factor.py:112-113 and 210-211. *)
Definition add_vals (extra : list string) (other : dict (list string))
    (d : dict (list string)) : res (dict (list string)) :=
  foldM (fun d v => let* vs := dget_err KeyError v other in Ok (dset v vs d)) extra d.

(** factor.py:63-136 [__add__] and 161-236 [__mul__] (useOther=False): the two
    bodies are the same up to the pointwise operation at the end
    (lines 91/96/134 and 189/194/234). *)
Definition fcombine {SO : SetOrder} (op : Qc -> Qc -> Qc) (self other : factor) : res factor :=
  match vorder self with
  | [] =>                                                  (* 187-190 / 89-92 *)
      let* p := zipb op (pot self) (pot other) in
      Ok (mkF p (vorder other) (fvals other))
  | _ :: _ =>
  match vorder other with
  | [] =>                                                  (* 192-195 / 94-97 *)
      let* p := zipb op (pot self) (pot other) in
      Ok (mkF p (vorder self) (fvals self))
  | _ :: _ =>
      let extra := sdiff (vorder other) (vorder self) in   (* 200 *)
      let rpot := expand (pot self) (length extra) in      (* 204-206, 216 *)
      let rorder := vorder self ++ extra in                (* 208 *)
      let* rvals := add_vals extra (fvals other) (fvals self) in  (* 210-211 *)
      let extra2 := sdiff rorder (vorder other) in         (* 220 *)
      let p2 := expand (pot other) (length extra2) in      (* 222-224 *)
      let order2 := vorder other ++ extra2 in              (* 225 *)
      let* swap := mapM (fun v => py_index v order2) rorder in    (* 228 *)
      let* p2' := transpose p2 swap in                     (* 229 *)
      let* p := zipb op rpot p2' in                        (* 234 *)
      Ok (mkF p rorder rvals)
  end
  end.

(** factor.py:161-236 [__mul__]. *)
Definition fmul {SO : SetOrder} := fcombine Qcmult.
(** factor.py:63-136 [__add__]. *)
Definition fadd {SO : SetOrder} := fcombine Qcplus.

(** factor.py:257-280 [invert].  Trivial factors: [copy] makes the potential a
    0-d array, for which [1.0/0] under errstate(divide="raise") raises
    FloatingPointError; the handler at line 274 catches ZeroDivisionError only.
    Other factors: 1/0 = inf is replaced by 0 (line 279). *)
Definition finvert (f : factor) : res factor :=
  match vorder f with
  | [] => if existsb (fun x => qeqb x 0%Qc) (data (pot f)) then Err FloatingPointError
          else Ok (mkF (amap Qcinv (pot f)) (vorder f) (fvals f))
  | _ => Ok (mkF (amap (fun x => if qeqb x 0%Qc then 0%Qc else Qcinv x) (pot f))
                 (vorder f) (fvals f))
  end.

(** factor.py:138-159 [__truediv__]. *)
Definition fdiv {SO : SetOrder} (self other : factor) : res factor :=
  if subset (dkeys (fvals other)) (dkeys (fvals self)) then
    let* i := finvert other in fmul self i
  else Err ValueError.

(** factor.py:513-541 [marginalize], for a list of variable names; a set
    argument is passed in its iteration order. *)
Definition marginalize1 (f : factor) (v : string) : res factor :=
  let* k := py_index v (vorder f) in                       (* 537 *)
  if dmem v (fvals f) then                                 (* 538 *)
    Ok (mkF (sum_axis k (pot f)) (remove1 v (vorder f)) (ddel v (fvals f)))
  else Err KeyError.

(** factor.py:513-541 [marginalize], all variables in turn. *)
Definition marginalize (f : factor) (vs : list string) : res factor :=
  foldM marginalize1 vs f.

(** factor.py:543-582 [get_potential].  [None]/{} gives the table itself. *)
Definition get_potential (f : factor) (variables : dict (list string)) : res ndarray :=
  let* index := mapM (fun v =>
      let* vals := dget_err KeyError v (fvals f) in
      match dget v variables with
      | Some sel => mapM (fun x => py_index x vals) sel    (* 573-575 *)
      | None => Ok (seq 0 (length vals))                   (* 577 *)
      end) (vorder f) in
  match variables with
  | [] => Ok (pot f)                                       (* 579-580 *)
  | _ => Ok (squeeze (take_ix (pot f) index))              (* 582 *)
  end.

(** factor.py:584-591 [normalize]. *)
Definition normalize (f : factor) : factor :=
  let s := asum (pot f) in
  if qltb 0%Qc s then mkF (amap (fun x => (x / s)%Qc) (pot f)) (vorder f) (fvals f)
  else f.

(** factor.py:347-365 [get_trivial]. *)
Definition trivial (q : Qc) : factor := mkF (scalar q) [] [].

(** factor.py:325-345 [unit_factor], [zero_factor]. *)
Definition const_factor (q : Qc) (order : list string) (values : dict (list string)) : res factor :=
  let* vs := mapM (fun v => dget_err KeyError v values) order in
  Ok (mkF (np_full (map (@length string) vs) q) order
          (fold_left (fun d p => dset (fst p) (snd p) d) (combine order vs) [])).
(** factor.py:325-334 [unit_factor]. *)
Definition unit_factor := const_factor 1%Qc.
(** factor.py:336-345 [zero_factor]. *)
Definition zero_factor := const_factor 0%Qc.

(** factor.py:282-322 [from_samples]; samples are dicts variable -> value.
    An empty sample list gives 0/0 = nan. *)
Definition from_samples (samples : list (dict string)) (variableValues : dict (list string))
  : res factor :=
  let order := dkeys variableValues in
  let shp := map (fun p => length (snd p)) variableValues in
  let* counts := foldM (fun a s =>
      let* idx := mapM (fun p => let* x := dget_err KeyError (fst p) s in
                                 py_index x (snd p)) variableValues in
      Ok (aset a idx (aget a idx + 1)%Qc)) samples (np_zeros shp) in
  let total := asum counts in
  if qeqb total 0%Qc then Err NonFinite
  else Ok (mkF (amap (fun x => (x / total)%Qc) counts) order variableValues).

(** Evidence: a value name or an array of weights.  factor.py:424, 437-442. *)
Inductive evid := Hard (x : string) | Soft (q : list Qc).

(** factor.py:486-505: the likelihood ratio for "all things considered"
    evidence; [NonFinite] where the code would divide by a zero [refEvidence]. *)
Definition soft_ratio (evidence old : list Qc) : res (list Qc) :=
  match argmax evidence with
  | None => Err ValueError                                 (* argmax of an empty array *)
  | Some (ref, refEv) =>
      mapM (fun i =>
        if Nat.eqb i ref then Ok 1%Qc
        else match nth_error old i with
             | None => Err IndexError                      (* 501 *)
             | Some oi =>
                 if qeqb oi 0%Qc then Ok 0%Qc
                 else match nth_error old ref with
                      | None => Err IndexError             (* 505 *)
                      | Some oref => if qeqb refEv 0%Qc then Err NonFinite
                                     else Ok (nth i evidence 0 / oi * oref / refEv)%Qc
                      end
             end) (seq 0 (length evidence))
  end.

(** factor.py:423-509 [as_evidence]. *)
Definition as_evidence (variable : string) (values : list string) (e : evid)
    (oldMarginals : option (list Qc)) : res factor :=
  match e with
  | Hard x =>
      match index_of x values with
      | None => Err ValueError                             (* 469-472 *)
      | Some i => Ok (mkF (mkArr [length values] (list_set i 1%Qc (repeat 0%Qc (length values))))
                          [variable] [(variable, values)])
      end
  | Soft q =>
      if Nat.eqb (length q) (length values) then
        match oldMarginals with
        | Some old => let* r := soft_ratio q old in
                      Ok (mkF (mkArr [length q] r) [variable] [(variable, values)])
        | None => Ok (mkF (mkArr [length q] q) [variable] [(variable, values)])
        end
      else Err ValueError                                  (* 476-479 *)
  end.
