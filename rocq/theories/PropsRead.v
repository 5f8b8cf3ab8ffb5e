(** C114: a double written with enough digits can be read back: the number its text
    denotes is closer to it than to any other double. Specification: ReadSpec.v. *)
From Coq Require Import Ascii String List QArith Qabs SpecFloat.
From Verif Require Import Base IntBasics FracModel FracSpec IOModel IOSpec CommonSpec FlagsModel FlagsSpec DoubleModel MatModel FormatSpec FloatModel FloatSpec ReadSpec FloatProofs ReadProofs.
Import ListNotations.
Local Open Scope list_scope.
Local Open Scope Z_scope.
Local Notation str := list_ascii_of_string.

(** The text of a finite double denotes a number, under any flags, and only one. *)
Theorem C114_denotes : forall fl ff d t, finite d -> float_with fl ff d t -> exists q, reads t q /\ forall r, reads t r -> (r == q)%Q.
Proof.
  intros fl ff d t F T. destruct (text_reads fl ff d t F T) as (q & R). exists q. split; [exact R|]. intros r R'. exact (reads_fun t r q R' R).
Qed.
(** With 17 significant digits, or 324 digits after the point, or in base 16, it is
    closer to d than to any other number of 53 bits. *)
Theorem C114_closest : forall fl ff d t, double d -> finite d -> enough ff -> float_with fl ff d t ->
  exists q, reads t q /\ forall y, bits53 y -> ~ (dval d == y)%Q -> (Qabs (dval d - q) < Qabs (y - q))%Q.
Proof. exact text_closest. Qed.
Theorem C114_bits53 : forall d, double d -> finite d -> bits53 (dval d).
Proof. exact double_bits53. Qed.
(** So the text determines the double, also the sign of zero, infinities and nan. *)
Theorem C114_injective : forall fl ff d d' t, double d -> double d' -> enough ff -> float_with fl ff d t -> float_with fl ff d' t -> d = d'.
Proof. exact text_inj. Qed.
Theorem C114_vec : forall fl ff o x y, Forall double x -> Forall double y -> enough ff -> vec_insert fl ff o x = vec_insert fl ff o y -> x = y.
Proof. exact vec_text_inj. Qed.
Theorem C114_mat : forall fl ff o r c g r' c' g', owidth o <= 0 -> (0 < c)%nat -> (0 < c')%nat -> enough ff ->
  (forall i j, (i < r)%nat -> (j < c)%nat -> double (g i j)) -> (forall i j, (i < r')%nat -> (j < c')%nat -> double (g' i j)) ->
  obuf (mat_insert fl ff r c g o) = obuf (mat_insert fl ff r' c' g' o) ->
  r = r' /\ ((0 < r)%nat -> c = c') /\ forall i j, (i < r)%nat -> (j < c)%nat -> g i j = g' i j.
Proof. exact mat_texts_inj. Qed.

Definition tenths (n : Z) : spec_float := SFdiv 53 1024 (double_of_int n) (double_of_int 10).
Definition sum : spec_float := SFadd 53 1024 (tenths 1) (tenths 2).
Definition tiny : spec_float := S754_finite false 1 (-1074).
Local Notation fl0 := (mkFlags Dec Right false false false).
(** One digit less is not enough: 0.3 and 0.1 + 0.2 in 16 digits, 0 and the least
    double with 323 digits after the point. *)
Theorem C114_sharp : double (tenths 3) /\ double sum /\ tenths 3 <> sum /\ double tiny /\
  float_text fl0 (mkFloat General 16 false) (tenths 3) = float_text fl0 (mkFloat General 16 false) sum /\
  float_text fl0 (mkFloat Scientific 15 false) (tenths 3) = float_text fl0 (mkFloat Scientific 15 false) sum /\
  float_text fl0 (mkFloat Fixed 323 false) tiny = float_text fl0 (mkFloat Fixed 323 false) (S754_zero false).
Proof. vm_compute. splits; try reflexivity; discriminate. Qed.

(** 17 digits tell them apart *)
Example C114_ex_digits : map (float_text fl0 (mkFloat General 17 false)) [tenths 3; sum; S754_zero true; tiny] =
  map str ["0.29999999999999999"; "0.30000000000000004"; "-0"; "4.9406564584124654e-324"]%string.
Proof. vm_compute. reflexivity. Qed.
(** what some texts denote *)
Local Lemma num ds n : (ds <> [] /\ IOProofs.digits ds /\ n = IOProofs.nv 0 ds) -> numeral ds n.
Proof. apply IOProofs.numeral_iff. Qed.
Ltac numeral_tac := apply num; splits; [discriminate|repeat constructor|reflexivity].
Example C114_ex_reads : reads (str "-12.50") (- (25 # 2)) /\ reads (str "+3.e+2") 300 /\ reads (str ".5E-1") (1 # 20) /\ reads (str "0x1.8p+1") 3 /\ reads (str "7") 7.
Proof.
  splits.
  - apply (reads_minus (str "12.50") (25 # 2)); [|reflexivity]. apply (decimal (str "12") (str "50") true (str ".50") [] 1250 0); [numeral_tac|reflexivity|constructor|reflexivity].
  - apply (reads_plus (str "3.e+2")). apply (decimal (str "3") [] true (str ".") (str "e+2") 3 2); [numeral_tac|reflexivity|apply plus_exponent; [auto|numeral_tac]|reflexivity].
  - apply (reads_bare (str ".5E-1")). apply (decimal [] (str "5") true (str ".5") (str "E-1") 5 (-1)); [numeral_tac|reflexivity|apply (minus_exponent _ _ _ _ 1); [auto|numeral_tac]|reflexivity].
  - apply reads_bare. apply (hexadecimal _ (str "1") (str "8") true (str ".8") (str "p+1") 24 1); auto; [discriminate| |reflexivity|apply plus_exponent; [auto|numeral_tac]|reflexivity].
    apply (hex_more (str "1") 1 true "8"%char 8); [apply (hex_more [] 0 true "1"%char 1); [constructor|split; [split; [discriminate|reflexivity]|reflexivity]]|split; [split; [discriminate|reflexivity]|reflexivity]].
  - apply reads_bare. apply (decimal (str "7") [] false [] [] 7 0); [numeral_tac|split; reflexivity|constructor|reflexivity].
Qed.
(** texts that denote nothing *)
Example C114_ex_no_number : ~ (exists q, reads (str "inf") q) /\ ~ (exists q, reads (str "--1") q) /\ ~ (exists q, reads [] q).
Proof.
  assert (N : forall c t q, denotes (c :: t) q -> c <> "i"%char /\ c <> "-"%char) by (intros c t q H; apply denotes_first in H as (a & r & E & _ & A & B & _); injection E as -> _; auto).
  splits; intros (q & H); inversion H; subst; cbn [list_ascii_of_string] in *; try (match goal with K : denotes (_ :: _) _ |- _ => destruct (N _ _ _ K); congruence end).
  match goal with K : denotes [] _ |- _ => apply denotes_first in K as (a & r & E & _); discriminate E end.
Qed.
(** two vectors of nearly equal doubles *)
Example C114_ex_vec : vec_insert fl0 (mkFloat General 17 false) fresh_out [tenths 3] <> vec_insert fl0 (mkFloat General 17 false) fresh_out [sum] /\
  vec_insert fl0 (mkFloat General 6 false) fresh_out [tenths 3] = vec_insert fl0 (mkFloat General 6 false) fresh_out [sum].
Proof. vm_compute. split; [discriminate|reflexivity]. Qed.

Print Assumptions C114_denotes.
Print Assumptions C114_closest.
Print Assumptions C114_bits53.
Print Assumptions C114_injective.
Print Assumptions C114_vec.
Print Assumptions C114_mat.
Print Assumptions C114_sharp.
