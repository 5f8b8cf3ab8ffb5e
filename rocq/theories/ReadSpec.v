(** The number a text denotes (the decimal and base 16 notations that C's strtod reads),
    and how many digits are enough for a double. *)
From Coq Require Import Ascii String QArith.
From Verif Require Import Base IOSpec FlagsSpec FormatSpec FloatModel.
Local Open Scope list_scope.
Local Open Scope Z_scope.

(** nothing, or the letter (small l, capital u) with an optional sign and digits *)
Inductive exponent_part (l u : ascii) : list ascii -> Z -> Prop :=
| no_exponent : exponent_part l u [] 0
| bare_exponent c e x : c = l \/ c = u -> numeral e x -> exponent_part l u (c :: e) x
| plus_exponent c e x : c = l \/ c = u -> numeral e x -> exponent_part l u (c :: "+"%char :: e) x
| minus_exponent c e x : c = l \/ c = u -> numeral e x -> exponent_part l u (c :: "-"%char :: e) (- x).
(** digits in base 16, small or capital letters *)
Inductive hex_number : list ascii -> Z -> Prop :=
| hex_none : hex_number [] 0
| hex_more t n up c d : hex_number t n -> base_digit 16 up c d -> hex_number (t ++ [c]) (16 * n + d).
(** i, i. or i.f and an exponent; the same after 0x with a power of two *)
Definition point (pt : bool) (f p : list ascii) : Prop := if pt then p = "."%char :: f else p = [] /\ f = [].
Inductive denotes : list ascii -> Q -> Prop :=
| decimal i f pt p e n x q : numeral (i ++ f) n -> point pt f p -> exponent_part "e" "E" e x ->
    (q == inject_Z n * ten (x - Z.of_nat (length f)))%Q -> denotes (i ++ p ++ e) q
| hexadecimal c i f pt p e n x q : c = "x"%char \/ c = "X"%char -> i ++ f <> [] -> hex_number (i ++ f) n -> point pt f p -> exponent_part "p" "P" e x ->
    (q == inject_Z n * (2 # 1) ^ (x - 4 * Z.of_nat (length f)))%Q -> denotes ("0"%char :: c :: i ++ p ++ e) q.
Inductive reads : list ascii -> Q -> Prop :=
| reads_bare t q : denotes t q -> reads t q
| reads_plus t q : denotes t q -> reads ("+"%char :: t) q
| reads_minus t q r : denotes t q -> (r == - q)%Q -> reads ("-"%char :: t) r.

(** enough digits for every double *)
Definition enough (ff : float_flags) : Prop :=
  match field ff with
  | General => 17 <= precision ff
  | Scientific => 16 <= precision ff
  | Fixed => 324 <= precision ff
  | Hexfloat => True
  end.
(** the numbers of 53 bits, without a largest exponent: the finite doubles and more *)
Definition bits53 (y : Q) : Prop := exists m e, Z.abs m < 2 ^ 53 /\ -1074 <= e /\ (y == inject_Z m * (2 # 1) ^ e)%Q.
