(** What Gaussian elimination with rounding computes: an exact factorisation, into triangular
    matrices, of a matrix near the given one. *)
From Coq Require Import Reals Qreals QArith SpecFloat.
From Verif Require Import FracSpec CommonSpec DoubleSpec DoubleCof.
Local Open Scope nat_scope.

(** m_i0 u_0j + ... + m_i(n-1) u_(n-1)j *)
Definition Qmat (n : nat) (m u : nat -> nat -> Q) (i j : nat) : Q := Qsum n (fun k => (m i k * u k j)%Q).
(** f 0 * ... * f (n-1) *)
Fixpoint Qprod (n : nat) (f : nat -> Q) : Q := match n with O => 1%Q | S k => (Qprod k f * f k)%Q end.
(** u is upper triangular; m is lower triangular with ones on the diagonal, when row i is
    moved to place i *)
Definition triangular (n : nat) (m u : nat -> nat -> Q) (place : nat -> nat) : Prop :=
  (forall i, i < n -> place i < n /\ (m i (place i) == 1)%Q /\ forall k, place i < k < n -> (m i k == 0)%Q) /\
  (forall i i', i < n -> i' < n -> place i = place i' -> i = i') /\
  (forall i j, j < i < n -> (u i j == 0)%Q).
(** each entry of a is near that of the product, and equal to it if no step changes it *)
Definition near_product (n : nat) (a m u : nat -> nat -> Q) (place : nat -> nat) : Prop := forall i j, i < n -> j < n -> let c := Nat.min (place i) j in
  (c = 0 -> (a i j == Qmat n m u i j)%Q) /\ (Rabs (Q2R (a i j) - Q2R (Qmat n m u i j)) <=
    ((1 + unit_roundoff) ^ (c + 1) - 1) * Rsum n (fun k => Rabs (Q2R (m i k) * Q2R (u k j))) + (1 + unit_roundoff) ^ c * half_least * Rsum c (fun k => 1 + / Rabs (Q2R (u k k))))%R.
(** d is s times v 0 * ... * v (n-1), multiplied in order, each product rounded *)
Definition product_rounded (n : nat) (v : nat -> Q) (s : Q) (d : spec_float) : Prop := exists w : nat -> spec_float,
  dR (w 0) = 1%R /\ (forall k, k < n -> finite (w k) /\ rounded (w (S k)) (dR (w k) * Q2R (v k))) /\ finite (w n) /\ dR d = (Q2R s * dR (w n))%R.
(** no product of the first k is so small that it loses digits *)
Definition products_normal (n : nat) (v : nat -> Q) : Prop := forall k, 1 <= k <= n ->
  (powerRZ 2 (-1022) <= (1 - unit_roundoff) ^ (n - 1) * Rabs (Rprod k (fun i => Q2R (v i))))%R.
(** d is nearly the determinant of a matrix near g. That matrix is a product of triangular
    ones with rows permuted, so its determinant is the product of the diagonal with a sign *)
Definition near_determinant (n : nat) (g : nat -> nat -> spec_float) (d : spec_float) : Prop := exists (M U : nat -> nat -> Q) (place : nat -> nat) (s : Q),
  ((s == 1)%Q \/ (s == - (1))%Q) /\ triangular n M U place /\
  (forall k j, (k <= j < n)%nat -> exists x, double x /\ finite x /\ (U k j == dval x)%Q) /\ (forall k, (k < n)%nat -> ~ (U k k == 0)%Q) /\
  near_product n (fun i j => dval (g i j)) M U place /\
  (Qdet n (Qmat n M U) == s * Qprod n (fun k => U k k))%Q /\ product_rounded n (fun k => U k k) s d /\
  (products_normal n (fun k => U k k) -> (Rabs (dR d - Q2R (Qdet n (Qmat n M U))) <= ((1 + unit_roundoff) ^ (n - 1) - 1) * Rabs (Q2R (Qdet n (Qmat n M U))))%R).
