(** Specification vocabulary for double: nearest doubles and truncation. *)
From Coq Require Import List Reals Qreals QArith SpecFloat.
From Verif Require Import FracSpec CommonSpec.
Local Open Scope Z_scope.

(** the value of a finite double as a real number *)
Definition dR (x : spec_float) : R := Q2R (dval x).
(** no finite double is closer to r than d *)
Definition nearest (r : R) (d : spec_float) : Prop := double d /\ finite d /\
  forall d', double d' -> finite d' -> (Rabs (dR d - r) <= Rabs (dR d' - r))%R.
(** q without its fraction *)
Definition Qtrunc (q : Q) : Z := Z.quot (Qnum q) (Zpos (Qden q)).
(** f 0 + ... + f (n-1) *)
Fixpoint Rsum (n : nat) (f : nat -> R) : R := match n with O => 0%R | S k => (Rsum k f + f k)%R end.
(** f 0 * ... * f (n-1) *)
Fixpoint Rprod (n : nat) (f : nat -> R) : R := match n with O => 1%R | S k => (Rprod k f * f k)%R end.
(** the value of the i-th element *)
Definition elem (x : list spec_float) (i : nat) : R := dR (nth i x S754_nan).
(** half the distance from 1 to the next double; half the smallest positive double *)
Definition unit_roundoff : R := (/ 9007199254740992)%R.
Definition half_least : R := powerRZ 2 (-1075).
Definition never_negative (d : spec_float) : Prop :=
  match d with S754_zero s | S754_infinity s => s = false | S754_finite s _ _ => s = false | S754_nan => False end.
(** the largest double *)
Definition largest : R := (IZR 9007199254740991 * powerRZ 2 971)%R.

(** *** Rounding *)
(** d is finite and its value is r *)
Definition R_double (d : spec_float) (r : R) : Prop := double d /\ finite d /\ dR d = r.
Definition even_significand (d : spec_float) : Prop := match d with S754_zero _ => True | S754_finite _ m _ => Z.even (Zpos m) = true | _ => False end.
(** the middle between the largest double and 2^1024 *)
Definition overflow_at : R := (IZR 18014398509481983 * powerRZ 2 970)%R.
(** d is what IEEE 754 prescribes for the exact result r: the nearest double, the even one
    if two are equally near; or the infinity *)
Definition rounded (d : spec_float) (r : R) : Prop := double d /\
  ((Rabs r < overflow_at)%R -> nearest r d /\ forall d', nearest r d' -> dR d' = dR d \/ even_significand d) /\
  ((overflow_at <= r)%R -> d = S754_infinity false) /\ ((r <= - overflow_at)%R -> d = S754_infinity true).

(** d is within the error of a sum of n products, [r] exactly and [t] when every product is
    taken in absolute value; finite unless they are too large *)
Definition dot_close (n : nat) (d : spec_float) (rt : R * R) : Prop := let (r, t) := rt in double d /\
  (finite d -> (Rabs (dR d - r) <= ((1 + unit_roundoff) ^ S n - 1) * t + INR n * (1 + unit_roundoff) ^ n * half_least)%R) /\
  (((1 + unit_roundoff) ^ S n * t + INR n * (1 + unit_roundoff) ^ n * half_least <= largest)%R -> finite d).
(** the same of a difference of two products *)
Definition minor_close (d : spec_float) (rt : R * R) : Prop := let (r, t) := rt in double d /\
  (finite d -> (Rabs (dR d - r) <= ((1 + unit_roundoff) ^ 2 - 1) * t + 2 * (1 + unit_roundoff) * half_least)%R) /\
  (((1 + unit_roundoff) * t + 2 * half_least <= largest)%R -> finite d).

(** *** Determinants *)
(** without row i and column j *)
Definition without {A} (i j : nat) (g : nat -> nat -> A) (a b : nat) : A := g (if (i <=? a)%nat then S a else a) (if (j <=? b)%nat then S b else b).
(** the determinant, expanded along the first row, and along the first column; the same of
    absolute values with all signs positive *)
Fixpoint Rdet (n : nat) (g : nat -> nat -> R) : R :=
  match n with O => 1%R | S k => Rsum n (fun j => (-1) ^ j * (g O j * Rdet k (without 0 j g)))%R end.
Fixpoint Rdet_col (n : nat) (g : nat -> nat -> R) : R :=
  match n with O => 1%R | S k => Rsum n (fun i => (-1) ^ i * (g i O * Rdet_col k (without i 0 g)))%R end.
Fixpoint Rperm (n : nat) (g : nat -> nat -> R) : R :=
  match n with O => 1%R | S k => Rsum n (fun j => Rabs (g O j) * Rperm k (without 0 j g))%R end.
Fixpoint Rperm_col (n : nat) (g : nat -> nat -> R) : R :=
  match n with O => 1%R | S k => Rsum n (fun i => Rabs (g i O) * Rperm_col k (without i 0 g))%R end.
(** roundings on the way from an entry to the expansion: 2 + 3 + ... + n *)
Fixpoint roundings (n : nat) : nat := match n with O => 0 | S O => 0 | S k => roundings k + n end.
(** r is a multiple of 2^-m *)
Definition grid (m : Z) (r : R) : Prop := exists k : Z, r = (IZR k * powerRZ 2 (- m))%R.
(** d is within the rounding error of r, where t is r with absolute values; and is finite when
    entries are at most b *)
Definition det_close (n : nat) (d : spec_float) (r t : R) : Prop := double d /\ (finite d -> (Rabs (dR d - r) <= ((1 + unit_roundoff) ^ roundings n - 1) * t)%R).
Definition det_fits (n : nat) (b : R) : Prop := (1 <= b /\ (1 + unit_roundoff) ^ roundings n * (INR (fact n) * b ^ n) <= largest)%R.
Definition at_most (n : nat) (b : R) (g : nat -> nat -> R) : Prop := forall i j, (i < n)%nat -> (j < n)%nat -> (Rabs (g i j) <= b)%R.
(** entries are multiples of 2^-e, so that products of n of them are not too small for a double *)
Definition coarse (n : nat) (e : Z) (g : nat -> nat -> R) : Prop := (Z.of_nat n * e <= 1074)%Z /\ forall i j, (i < n)%nat -> (j < n)%nat -> grid e (g i j).
