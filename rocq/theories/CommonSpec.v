(** Specification vocabulary for the double helpers of common.hpp. *)
From Coq Require Import QArith SpecFloat.
From Verif Require Import FracSpec.
Local Open Scope Z_scope.

(** A double: its significand and exponent fit binary64. *)
Definition double (x : spec_float) : Prop := valid_binary 53 1024 x = true.
(** The double EPSILON is 0.00001 to within half a unit in the last place; these are the
    rationals half-way to the next double above and below. *)
Definition above_eps : Q := (11805916207174115 # 1180591620717411303424).
Definition below_eps : Q := (11805916207174113 # 1180591620717411303424).
