(** The element type int: values that fit in 32 bits, and the intermediate results
    of the sums Vec and Mat form. *)
From Coq Require Import Factorial.
From Verif Require Import Base IntModel ElemModel ElemSpec.
Local Open Scope Z_scope.

Definition fits (z : Z) : Prop := INT32_MIN <= z <= INT32_MAX.
(** an int that holds a *)
Definition R32 (x a : Z) : Prop := x = a /\ fits a.
(** p 0 + ... + p (n-1) *)
Definition total (n : nat) (p : nat -> Z) : Z := sum_to 0 Z.add n p.
(** adding up p 0, p 1, ... from left to right stays in range *)
Definition sums_fit (n : nat) (p : nat -> Z) : Prop := forall k, (k < n)%nat -> fits (total (S k) p).
(** m returns a result with Q when F holds, and is undefined otherwise *)
Definition exact_if {A} (F : Prop) (m : res A) (Q : A -> Prop) : Prop :=
  (F -> exists a, m = Ok a /\ Q a) /\ (~ F -> m = UB).
(** the same for a statement; what an object holds after undefined behaviour does
    not matter *)
Definition leaves_if {S} (F : Prop) (p : outcome S) (Q : S -> Prop) : Prop :=
  (F -> exists s, p = (s, Ok tt) /\ Q s) /\ (~ F -> snd p = UB).
(** what the cross product computes on the way *)
Definition cross_fits (v w : nat -> Z) : Prop := forall i j, In (i, j) [(1, 2); (2, 0); (0, 1)]%nat ->
  fits (v i * w j) /\ fits (v j * w i) /\ fits (v i * w j - v j * w i).
(** n! * b^n: no determinant of an n x n matrix with entries up to b is greater *)
Definition det_bound (n : nat) (b : Z) : Z := Z.of_nat (fact n) * b ^ Z.of_nat n.
(** an int of magnitude at most b *)
Definition R32_upto (b x a : Z) : Prop := x = a /\ Z.abs a <= b.
