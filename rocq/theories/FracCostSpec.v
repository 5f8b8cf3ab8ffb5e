(** Bounds on the rounds of the loops, in bins: a product of two numbers of at most n
    bins, a sum, a greatest common divisor, the reduction of a fraction, a power of s bins at
    most with an exponent e of l bins. *)
From Verif Require Import Base IntModel IntSpec FracModel IntCostSpec.
Local Open Scope Z_scope.

Definition product (n : Z) : Z := n ^ 3 + 9 * n ^ 2 + 8 * n + 2.
Definition sum (n : Z) : Z := 26 * n.
Definition divisor (n : Z) : Z := 4230 * n ^ 3 + 112720 * n ^ 2 + 243715 * n.
Definition reduction (n : Z) : Z := 4408 * n ^ 3 + 117464 * n ^ 2 + 253955 * n.
Definition power (s e l : Z) : Z := s ^ 3 + 5 * s ^ 2 + 15 * s + 28 * l * (2 * Z.log2 e + 2).

(** Ints as the library makes them, and Fracs of such, of at most n bins. *)
Definition fits_in (n : Z) (x : Int) : Prop := canonical x /\ limbs x <= n.
Definition frac_fits (n : Z) (f : Frac) : Prop := fits_in n (top f) /\ fits_in n (bot f).
