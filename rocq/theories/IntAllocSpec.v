(** What a compound assignment x op= y should leave in x when memory runs out, in terms of
    numbers and of their bins (base 10^9, src/Int.hpp:18-24). *)
From Verif Require Import Base IntModel IntSpec AllocModel IntAllocModel.
Local Open Scope list_scope.
Local Open Scope Z_scope.

(** [p] started on x ends as [F] says, or in std::bad_alloc, and then leaves z with [L z]. An
    exception of the code itself leaves x. *)
Definition ends (p : step unit) (F : res Int) (L : Int -> Prop) (x : Int) : Prop :=
  forall n, match p x n with
  | (z, _, Fin m) => m = (_ <- F ;; Ok tt) /\ match F with Ok r => z = r | Throw _ => z = x | _ => True end
  | (z, _, NoMem) => L z
  end.
(** r is the canonical Int for v *)
Definition is_the (v : Z) (r : Int) : Prop := canonical r /\ val r = v.

(** left by *=, %=, ^= with the result r: x, or r, or something between them *)
Definition left_by_result (half : list Z -> list Z -> list Z) (x r z : Int) : Prop :=
  z = x \/ z = r \/ z = mkInt (half (bins x) (bins r)) (negative x).
(** left by += and -=: x, or its absolute value; if the absolute values are added, the sum of
    both but for the last carry; if they are subtracted and |x| <= |y|, also their
    difference |x| - |y| and something between *)
Definition left_by_sum (half : list Z -> list Z -> list Z) (adds : bool) (x y z : Int) : Prop :=
  let a := Z.abs (val x) in let b := Z.abs (val y) in
  z = x \/ (val x < 0 /\ z = mkInt (bins x) false) \/
  if adds then exists k, k = Nat.max (length (bins x)) (length (bins y)) /\ (10 ^ 9) ^ Z.of_nat k <= a + b /\
                 wf z /\ length (bins z) = k /\ val z = a + b - (10 ^ 9) ^ Z.of_nat k /\ negative z = false
  else a <= b /\ (is_the (a - b) z \/ exists r, is_the (a - b) r /\ z = mkInt (half (bins x) (bins r)) false).
(** left by /=: x; or no bin at all, if the quotient is 0; or, with i digits still to do, the
    digits of the quotient above them and those of x below *)
Definition left_by_division (x y z : Int) : Prop :=
  let a := Z.abs (val x) in let b := Z.abs (val y) in
  z = x \/ (a < b /\ z = mkInt [] (negative x)) \/
  (0 < b <= a /\ negative z = negative x /\ wf z /\ (length (bins z) <= length (bins x))%nat /\
   exists i, 0 <= i < Z.of_nat (length (bins x)) /\ let P := (10 ^ 9) ^ i in Z.abs (val z) = P * (a / P / b) + a mod P).
