(** Model of the double helpers of src/common.hpp and src/common.cpp: IEEE
    binary64 numbers are the valid [spec_float]s, arithmetic rounds to nearest even
    (no extended precision). isFinite is in FracModel.v; cmp_ints, max and isdigit
    with their users in IntModel.v and IOModel.v. *)
From Coq Require Import SpecFloat.
From Verif Require Import Base FracModel.
Local Open Scope Z_scope.

(** EPSILON -- src/common.hpp:33: the double nearest to 0.00001, 0x1.4f8b588e368f1p-17 *)
Definition EPSILON : spec_float := S754_finite false 5902958103587057 (-69).
(** operator- on double *)
Definition dsub : spec_float -> spec_float -> spec_float := SFsub 53 1024.
(** float_cmp -- src/common.cpp:9-16 *)
Definition float_cmp (x y : spec_float) : Z :=
  let d := dsub y x in
  if SFltb d (SFopp EPSILON) then -1
  else if SFltb EPSILON d then 1
  else 0.
(** abs<double> -- src/common.hpp:41-44. 0 becomes 0.0. *)
Definition dabs (a : spec_float) : spec_float := if SFltb a (S754_zero false) then SFopp a else a.
(** float_equals -- src/common.hpp:46-48 *)
Definition float_equals (x y : spec_float) : Z := if SFltb (dabs (dsub x y)) EPSILON then 1 else 0.
