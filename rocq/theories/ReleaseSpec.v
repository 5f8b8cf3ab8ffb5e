(** What the build without assertions should be compared with. Independent of the code:
    [a], [b] are the absolute values of a dividend and a divisor, digits are in base 10^9. *)
From Coq Require Import ZArith.
From Verif Require Import Base.
Local Open Scope Z_scope.

(** A failed assertion has become a failed bounds check. *)
Definition released {A} (m : res A) : res A := match m with Abort => Throw OutOfRange | _ => m end.

(** Long division of a by b stops at digit j: that digit of a is zero, it is neither the
    first digit nor the last one, and the digits before it are worth less than b. *)
Definition stops_at (a b j : Z) : Prop :=
  1 <= j /\ (10 ^ 9) ^ (j + 1) <= a /\ a / (10 ^ 9) ^ (j + 1) < b /\ (a / (10 ^ 9) ^ j) mod 10 ^ 9 = 0.
(** What is left of a where it first stops *)
Definition left_of (a b l : Z) : Prop :=
  exists j, stops_at a b j /\ (forall j', stops_at a b j' -> j' <= j) /\ l = a mod (10 ^ 9) ^ j.

(** A number with n stored digits can be subtracted in place from the number a. *)
Definition fits (n : nat) (a : Z) : Prop := (n <= 1)%nat \/ (10 ^ 9) ^ (Z.of_nat n - 1) <= a.
