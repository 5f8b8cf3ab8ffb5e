(** C97: the text of a double, and so of Vec<double> and Mat<double>. Specification:
    FormatSpec.v (rounding to six significant digits; notation of a number). *)
From Coq Require Import Ascii String List QArith Qabs SpecFloat ZifyBool.
From Verif Require Import Base IntBasics FracModel FracSpec IOModel IOSpec IOProofs CommonSpec ElemModel ElemSpec VecModel VecProofs MatModel MatSpec MatPrint Int32Spec MiscProofs
  SimSpec SimInst DoubleModel FormatSpec FormatProofs.
Import ListNotations.
Local Open Scope list_scope.
Local Open Scope Z_scope.
Local Notation str := list_ascii_of_string.

(** The specification determines the text, the rounded value and the order. *)
Theorem C97_unique : forall d t u, double_text d t -> double_text d u -> t = u.
Proof. exact double_text_unique. Qed.
Theorem C97_rounding_unique : forall x q r, six_digits x q -> six_digits x r -> (q == r)%Q.
Proof. exact six_digits_unique. Qed.

(** Every double is written as its value rounded to six significant digits. *)
Theorem C97_double : forall d o, double d -> owidth o = 0 ->
  exists t, double_text d t /\ double_print o d = mkOut (obuf o ++ t) 0 (ofill o).
Proof.
  intros d o Hd W. exists (general_text d). split; [apply general_text_ok, Hd|]. unfold double_print, put. rewrite W. reflexivity.
Qed.
(** Integers of up to six digits are written in full, as an int is. *)
Theorem C97_integer : forall d k, double d -> finite d -> (dval d == inject_Z k)%Q -> Z.abs k < 1000000 -> (k = 0 -> d = S754_zero false) ->
  canonical_text (general_text d) k.
Proof. exact general_text_int. Qed.
Theorem C97_as_int : forall k o, Z.abs k < 1000000 -> double_print o (double_of_int k) = int32_print o k.
Proof.
  intros k o Hk. unfold double_print, int32_print. f_equal. destruct (double_const k ltac:(lia)) as (D & F & V).
  eapply canonical_text_unique; [|apply dec_int32_text; unfold fits, INT32_MIN, INT32_MAX; lia]. apply general_text_int; auto. intros ->. reflexivity.
Qed.
(** The numbers shown are in the order of the doubles. *)
Theorem C97_order : forall x y, double x -> double y -> finite x -> finite y -> (dval x <= dval y)%Q ->
  exists p q, shows (general_text x) p /\ shows (general_text y) q /\ (p <= q)%Q.
Proof. exact shown_order. Qed.

(** Vec<double> and Mat<double> *)
Theorem C97_vec : forall x o, Forall double x -> owidth o = 0 -> exists o' t,
  V_print double_print o x = Ok o' /\ owidth o' = 0 /\ obuf o' = obuf o ++ ["("%char] ++ separated t ++ [")"%char] /\ Forall2 double_text x t.
Proof.
  intros x o Hx W. destruct (V_print_ok double_print general_text o x) as (o' & E & W' & B); auto.
  { intros p e _ Wp. unfold double_print, put. rewrite Wp. split; reflexivity. }
  exists o', (map general_text x). splits; auto. clear -Hx. induction Hx; constructor; auto using general_text_ok.
Qed.
Theorem C97_mat : forall m r c g o, mat_of (fun d d' => double d /\ d = d') m r c g -> owidth o = 0 -> exists o' t,
  M_print double_ops double_print o m = Ok o' /\ owidth o' = 0 /\ obuf o' = obuf o ++ mat_text r c t /\ forall i j, (i < r)%nat -> (j < c)%nat -> double_text (g i j) (t i j).
Proof.
  intros m r c g o Hm W. destruct (M_print_ok double_ops (fun d d' => double d /\ d = d') double_print general_text) with (o := o) (m := m) (r := r) (c := c) (g := g) as (o' & E & W' & B); auto.
  { intros p x a [_ <-] Wp. unfold double_print, put. rewrite Wp. split; reflexivity. }
  exists o', (fun i j => general_text (g i j)). splits; auto. intros i j Hi Hj. apply general_text_ok.
  destruct Hm as (_ & _ & _ & Hm). destruct (Hm i j Hi Hj) as (e & _ & He & <-). exact He.
Qed.

Definition d (n e : Z) : spec_float := binary_normalize 53 1024 n e false.
Definition quot (n k : Z) : spec_float := SFdiv 53 1024 (double_of_int n) (double_of_int k).
Definition half (n : Z) : spec_float := d n (-1).
(** fixed and exponent notation, trailing zeros, ties (of which 0.5 and 2^-k are exact),
    rounding up into the next decade on either side of the change of notation, the
    largest and the smallest double *)
Example C97_ex : map general_text [d 1 0; half 5; quot 1 3; quot (-2) 3; d 100000 0; d 999999 0; d 1000000 0; half 1999999; half 2000001; half 1999997;
    quot 1 10000; quot 1 100000; quot 99999951 1000000000000; quot 9999994 100000000000; d 1234567 0; d 1234565 0; d 1 100; d 1 (-1074); d 9007199254740991 971; S754_zero true; S754_infinity true; S754_nan] =
  map str ["1"; "2.5"; "0.333333"; "-0.666667"; "100000"; "999999"; "1e+06"; "1e+06"; "1e+06"; "999998"; "0.0001"; "1e-05"; "0.0001"; "9.99999e-05"; "1.23457e+06"; "1.23456e+06";
    "1.26765e+30"; "4.94066e-324"; "1.79769e+308"; "-0"; "-inf"; "nan"]%string /\
  (o <- V_print double_print fresh_out [half 3; d (-2) 0; quot 1 7] ;; Ok (string_of_list_ascii (obuf o))) = Ok "(1.5, -2, 0.142857)"%string.
Proof. vm_compute. auto. Qed.
(** Different doubles may have the same text, and from 10^6 on integers are shortened:
    the text of a Mat<double> of integers is then not that of a Mat<int>. *)
Example C97_ex_same_text : quot 1 3 <> d 6004799503160660 (-54) /\ general_text (quot 1 3) = general_text (d 6004799503160660 (-54)) /\
  general_text (double_of_int 1234567) <> dec_int32 1234567.
Proof. vm_compute. repeat split; discriminate. Qed.
(** the hypotheses of C97_order and of the specification, on a number *)
Example C97_ex_six : six_digits (2 # 3) (666667 # 1000000).
Proof. exists (-1), 666667. split; [split; vm_compute; congruence|]. split; [split; [vm_compute; congruence|intros H; vm_compute in H; discriminate]|]. vm_compute. reflexivity. Qed.
Print Assumptions C97_unique.
Print Assumptions C97_rounding_unique.
Print Assumptions C97_double.
Print Assumptions C97_integer.
Print Assumptions C97_as_int.
Print Assumptions C97_order.
Print Assumptions C97_vec.
Print Assumptions C97_mat.
