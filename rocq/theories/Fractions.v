(** An example of [FloatText] (IO.v): numbers are written as numerator/denominator
    in decimal, and integers can be read as well.  Used in examples only. *)
From Coq Require Import QArith Ascii Decimal DecimalString DecimalPos DecimalZ.
From Verif Require Import Base Xml IO IOText.

Definition int_text (z : Z) : string := NilZero.string_of_int (Z.to_int z).
Definition int_read (s : string) : option Z := option_map Z.of_int (NilZero.int_of_string s).

Lemma int_read_text z : int_read (int_text z) = Some z.
Proof.
  unfold int_read, int_text. rewrite NilZero.isi.
  - cbn. rewrite DecimalZ.of_to. reflexivity.
  - destruct z; cbn; try discriminate. intros H. injection H as H. exact (Unsigned.to_uint_nonnil p H).
  - destruct z; cbn; try discriminate. intros H. injection H as H. exact (Unsigned.to_uint_nonnil p H).
Qed.

Lemma uint_chars d : Forall (fun a => 48 <= nat_of_ascii a) (list_ascii_of_string (NilEmpty.string_of_uint d)).
Proof. induction d; cbn; constructor; try exact IHd; vm_compute; lia. Qed.

Lemma uint_chars0 d : Forall (fun a => 48 <= nat_of_ascii a) (list_ascii_of_string (NilZero.string_of_uint d)).
Proof. destruct d; [constructor; [vm_compute; lia|constructor]|..]; apply (uint_chars (_ d)). Qed.

Definition digit_or_minus (a : ascii) : Prop := a = "-"%char \/ 48 <= nat_of_ascii a.

Lemma int_chars z : Forall digit_or_minus (list_ascii_of_string (int_text z)).
Proof.
  unfold int_text. destruct (Z.to_int z) as [d|d]; cbn [NilZero.string_of_int list_ascii_of_string]; [|constructor; [left; reflexivity|]];
    (eapply Forall_impl; [|apply uint_chars0]; intros a H; right; exact H).
Qed.

Lemma int_text_filled z : int_text z <> ""%string.
Proof.
  intros E. pose proof (int_read_text z) as H. rewrite E in H. discriminate.
Qed.

Lemma int_text_free z : free_of "/"%char (int_text z).
Proof.
  intros I. pose proof (int_chars z) as F. rewrite Forall_forall in F. destruct (F _ I) as [X|X]; [discriminate|].
  change (nat_of_ascii "/"%char) with 47 in X. lia.
Qed.

Definition frac_text (_ : bool) (q : Qc) : string := (int_text (Qnum q) ++ String "/" (int_text (Zpos (Qden q))))%string.
Definition frac_read (s : string) : option Qc :=
  match split_at "/"%char s with
  | [a; b] => match int_read a, int_read b with
              | Some n, Some (Zpos d) => Some (Q2Qc (n # d))
              | _, _ => None
              end
  | [a] => match int_read a with Some n => Some (Q2Qc (n # 1)) | None => None end
  | _ => None
  end.

Lemma frac_read_text int q : frac_read (frac_text int q) = Some q.
Proof.
  unfold frac_read, frac_text. rewrite split_at_app by apply int_text_free. rewrite split_at_free by apply int_text_free.
  rewrite !int_read_text. f_equal. destruct q as [[n d] C]. cbn [this Qnum Qden]. apply Qc_is_canon. exact (Qred_correct (n # d)).
Qed.

Definition fractions : FloatText.
Proof.
  refine {| fprint := frac_text; fread := frac_read; fread_fprint := frac_read_text |}.
  - intros int q E. unfold frac_text in E. apply (int_text_filled (Qnum q)). destruct (int_text (Qnum q)); [reflexivity|discriminate].
  - intros int q. unfold frac_text. rewrite list_ascii_app. cbn [list_ascii_of_string]. apply Forall_app.
    assert (X : forall z, Forall (fun a => 33 <= nat_of_ascii a) (list_ascii_of_string (int_text z))).
    { intros z. eapply Forall_impl; [|apply int_chars]. intros a [->|H]; [vm_compute|]; lia. }
    split; [apply X|]. constructor; [vm_compute; lia|apply X].
Defined.
