(** C96: printing an Int on a stream whose formatting flags have been changed. Model:
    FlagsModel.v; specification (which text the flags ask for): FlagsSpec.v. *)
From Coq Require Import Ascii String ZifyBool.
From Verif Require Import Base IntModel IntSpec IntBasics IntMul IOModel IOSpec IOProofs FlagsModel FlagsSpec FlagsProofs.
Local Open Scope list_scope.
Local Open Scope Z_scope.
Local Notation str := list_ascii_of_string.

(** With the default flags, and whatever showbase and uppercase, this is the print()
    of IOModel (any field width, any Int). *)
Theorem C96_default : forall fl o x, base fl = Dec -> showpos fl = false -> adjust fl <> Left -> wf x ->
  Int_insert fl o x = Int_print o x.
Proof. exact Int_insert_default. Qed.
(** The specification gives each integer exactly one text in base 10, and in the other
    bases the value and the base determine the number of digits. *)
Theorem C96_spec_dec : forall fl t v, base fl = Dec -> showpos fl = false -> (text_with fl t v <-> canonical_text t v).
Proof. exact text_dec. Qed.

(** An Int of less than ten digits is printed as an int is, under all flags but one
    combination: showpos in base 10 puts a plus behind the minus. *)
Theorem C96_one_bin_partial : forall fl o x t, owidth o = 0 -> canonical x -> Z.abs (val x) < 10 ^ 9 -> obuf (Int_insert fl o x) = obuf o ++ t ->
  (text_with fl t (val x) <-> ~ (base fl = Dec /\ showpos fl = true /\ val x < 0)).
Proof. intros fl o x t W Cx H E. apply (written_ok fl o x W) in E as ->. apply one_bin; auto. Qed.
(** Base 10: with left alignment the zeros that fill up a group of nine digits end up
    behind its digits, so it is right only if no group but the first starts with a zero
    or all of it is zero. *)
Theorem C96_dec_partial : forall fl o x t, owidth o = 0 -> canonical x -> base fl = Dec -> showpos fl = false -> obuf (Int_insert fl o x) = obuf o ++ t ->
  (text_with fl t (val x) <-> adjust fl <> Left \/
    (forall i, 10 ^ (9 * (Z.of_nat i + 1)) <= Z.abs (val x) -> nine_digits (val x) i = 0 \/ 10 ^ 8 <= nine_digits (val x) i)).
Proof. intros fl o x t W Cx Eb Es E. apply (written_ok fl o x W) in E as ->. apply (dec_text fl o x); auto. Qed.
Theorem C96_showpos_partial : forall fl o x t, owidth o = 0 -> canonical x -> base fl = Dec -> showpos fl = true -> obuf (Int_insert fl o x) = obuf o ++ t ->
  (text_with fl t (val x) <-> 0 <= val x < 10 ^ 9).
Proof. intros fl o x t W Cx Eb Es E. apply (written_ok fl o x W) in E as ->. apply dec_plus; auto. Qed.
(** Base 16 is never right from ten digits on; base 8 not up to 18 digits. *)
Theorem C96_hex_partial : forall fl o x t, owidth o = 0 -> canonical x -> base fl = Hex -> obuf (Int_insert fl o x) = obuf o ++ t ->
  (text_with fl t (val x) <-> Z.abs (val x) < 10 ^ 9).
Proof. intros fl o x t W Cx Eb E. apply (written_ok fl o x W) in E as ->. apply hex_text; auto. Qed.
Theorem C96_oct_partial : forall fl o x t, owidth o = 0 -> canonical x -> base fl = Oct -> Z.abs (val x) < 10 ^ 18 -> obuf (Int_insert fl o x) = obuf o ++ t ->
  (text_with fl t (val x) <-> Z.abs (val x) < 10 ^ 9).
Proof. intros fl o x t W Cx Eb H E. apply (written_ok fl o x W) in E as ->. apply oct_text; auto. Qed.
(** Something is always written after what is in the buffer, so the theorems above do
    speak about every stream and every Int. *)
Theorem C96_appends : forall fl o x, owidth o = 0 -> exists t, obuf (Int_insert fl o x) = obuf o ++ t.
Proof. intros fl o x W. eexists. apply (written_ok fl o x W). reflexivity. Qed.

(** The claim is false: here is one text for each of the ways it fails. The left-aligned
    text is a number again, and reading it gives 1100000000 for 1000000001. *)
Definition dec_left := mkFlags Dec Left false false false.
Definition dec_pos := mkFlags Dec Right true false false.
Definition hex := mkFlags Hex Right false true true.
Definition shown (fl : flags) (x : Int) : list ascii := obuf (Int_insert fl fresh_out x).
Theorem C96_refuted : exists x y, canonical x /\ canonical y /\ val x = 1000000001 /\ val y = -7 /\
  ~ text_with dec_left (shown dec_left x) (val x) /\ ~ text_with dec_pos (shown dec_pos x) (val x) /\
  ~ text_with dec_pos (shown dec_pos y) (val y) /\ ~ text_with hex (shown hex x) (val x) /\
  exists z, Int_of_string (shown dec_left x) = Ok z /\ val z = 1100000000.
Proof.
  exists (mkInt [1; 1] false), (mkInt [7] true).
  assert (Cx : canonical (mkInt [1; 1] false)) by (apply canonicalb_spec; vm_compute; reflexivity).
  assert (Cy : canonical (mkInt [7] true)) by (apply canonicalb_spec; vm_compute; reflexivity).
  assert (Vx : val (mkInt [1; 1] false) = 1000000001) by reflexivity. assert (Vy : val (mkInt [7] true) = -7) by reflexivity.
  refine (conj Cx (conj Cy (conj Vx (conj Vy (conj _ (conj _ (conj _ (conj _ _)))))))).
  - intros H. apply (C96_dec_partial dec_left fresh_out _ _ eq_refl Cx eq_refl eq_refl eq_refl) in H as [H|H]; [apply H; reflexivity|].
    specialize (H O). rewrite Vx in H. destruct H as [H|H]; [vm_compute; discriminate| |]; vm_compute in H; [discriminate|]. apply H; reflexivity.
  - intros H. apply (C96_showpos_partial dec_pos fresh_out _ _ eq_refl Cx eq_refl eq_refl eq_refl) in H. rewrite Vx in H. lia.
  - intros H. apply (C96_showpos_partial dec_pos fresh_out _ _ eq_refl Cy eq_refl eq_refl eq_refl) in H. rewrite Vy in H. lia.
  - intros H. apply (C96_hex_partial hex fresh_out _ _ eq_refl Cx eq_refl eq_refl) in H. rewrite Vx in H. lia.
  - eexists. split; vm_compute; reflexivity.
Qed.
(** The texts themselves, and right ones: 1234567890 and 1000000000 left-aligned, a
    bin under each base, a width (the minus takes it, alone). *)
Example C96_ex : shown dec_left (mkInt [1; 1] false) = str "1100000000" /\ shown dec_pos (mkInt [1; 1] false) = str "+10000000+1" /\
  shown dec_pos (mkInt [7] true) = str "-+7" /\ shown hex (mkInt [1; 1] false) = str "0X10000000X1" /\
  shown (mkFlags Oct Left false true false) (mkInt [1; 1] false) = str "01010000000" /\
  shown dec_left (mkInt [234567890; 1] false) = str "1234567890" /\ shown dec_left (mkInt [0; 1] true) = str "-1000000000" /\
  shown dec_pos (mkInt [7] false) = str "+7" /\ shown hex (mkInt [48879] true) = str "-0XBEEF" /\
  shown (mkFlags Hex Internal true true false) (mkInt [255] false) = str "0xff" /\ shown (mkFlags Oct Right true true true) (mkInt [64] false) = str "0100" /\
  obuf (Int_insert dec_left (mkOut [] 4 "*"%char) (mkInt [7] true)) = str "-***7" /\
  obuf (Int_insert (mkFlags Dec Internal true false false) (mkOut [] 4 "*"%char) (mkInt [7] false)) = str "+**7" /\
  obuf (Int_insert (mkFlags Hex Internal true true false) (mkOut [] 6 "*"%char) (mkInt [255] false)) = str "0x**ff" /\
  obuf (Int_insert (mkFlags Oct Internal true true false) (mkOut [] 6 "*"%char) (mkInt [64] false)) = str "**0100".
Proof. vm_compute. auto 20. Qed.
Example C96_ex_zero : shown dec_pos (mkInt [0] false) = str "+0" /\ shown dec_pos (mkInt [0; 0] false) = str "+0" /\
  shown (mkFlags Oct Left false true false) (mkInt [0] false) = str "0" /\ shown hex (mkInt [0] false) = str "0".
Proof. vm_compute. auto. Qed.
Print Assumptions C96_default.
Print Assumptions C96_spec_dec.
Print Assumptions C96_one_bin_partial.
Print Assumptions C96_dec_partial.
Print Assumptions C96_showpos_partial.
Print Assumptions C96_hex_partial.
Print Assumptions C96_oct_partial.
Print Assumptions C96_appends.
Print Assumptions C96_refuted.
