(** The text of a double: rounding to six significant digits, and the notation for a
    number of at most six digits (C's %g format), as predicates. *)
From Coq Require Import Ascii String QArith SpecFloat.
From Verif Require Import Base FracSpec IOSpec.
Local Open Scope list_scope.
Local Open Scope Z_scope.

Definition ten (k : Z) : Q := ((10 # 1) ^ k)%Q.
(** q is x rounded to six significant digits, to nearest, ties to even (x > 0) *)
Definition six_digits (x q : Q) : Prop := exists k n,
  (ten k <= x < ten (k + 1))%Q /\ nearest_even (x * ten (5 - k)) n /\ (q == inject_Z n * ten (k - 5))%Q.

(** digits after the point; no point if there are none, and no zero at the end *)
Definition fraction (f : list ascii) : list ascii := match f with [] => [] | _ => "."%char :: f end.
Definition no_zero_end (f : list ascii) : Prop := last f "1"%char <> "0"%char.
(** i.f *)
Inductive fixed_form : list ascii -> Q -> Prop :=
| fixed_form_ i a f n : canonical_text i a -> 0 <= a -> numeral (i ++ f) n -> no_zero_end f ->
    fixed_form (i ++ fraction f) (inject_Z n * ten (- Z.of_nat (length f))).
(** at least two digits *)
Definition exponent_digits (e : list ascii) (x : Z) : Prop := numeral e x /\ (length e = 2%nat \/ 100 <= x /\ canonical_text e x).
(** c.fe+x or c.fe-x *)
Inductive exponent_form : list ascii -> Q -> Z -> Prop :=
| exponent_form_ c f n e x : numeral (c :: f) n -> c <> "0"%char -> no_zero_end f -> exponent_digits e (Z.abs x) ->
    exponent_form (c :: fraction f ++ "e"%char :: (if x <? 0 then "-"%char else "+"%char) :: e) (inject_Z n * ten (x - Z.of_nat (length f))) x.
(** the notation of a positive number *)
Inductive positive_text (t : list ascii) (q : Q) : Prop :=
| pt_fixed : fixed_form t q -> (ten (-4) <= q < ten 6)%Q -> positive_text t q
| pt_exponent x : exponent_form t q x -> x < -4 \/ 6 <= x -> positive_text t q.

Definition minus_if (s : bool) : list ascii := if s then ["-"%char] else [].
(** t is the text of d; [shows t q]: it denotes the number q *)
Definition double_text (d : spec_float) (t : list ascii) : Prop :=
  match d with
  | S754_nan => t = list_ascii_of_string "nan"
  | S754_infinity s => t = minus_if s ++ list_ascii_of_string "inf"
  | S754_zero s => t = minus_if s ++ ["0"%char]
  | S754_finite s m e => exists u q, t = minus_if s ++ u /\ six_digits (dval (S754_finite false m e)) q /\ exists p, (p == q)%Q /\ positive_text u p
  end.
Inductive shows : list ascii -> Q -> Prop :=
| shows_zero s : shows (minus_if s ++ ["0"%char]) 0
| shows_number s t q : positive_text t q -> shows (minus_if s ++ t) (if s then - q else q).
