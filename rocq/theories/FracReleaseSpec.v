(** What a fraction holds after reducing it has thrown, in the build without assertions. *)
From Coq Require Import ZArith QArith.
From Verif Require Import Base IntModel IntSpec FracModel FracSpec ReleaseSpec.
Local Open Scope Z_scope.

(** What is left of a fraction in place of t/b when reducing it throws: Euclid's
    algorithm has failed and the fraction is left unreduced; or the numerator divides the
    denominator and the division of the numerator by itself has failed; or the other way
    round. [T]/[D] is t/b with the sign moved to the numerator. *)
Definition left_frac (t b : Z) (l : Frac) : Prop :=
  let T := if b <? 0 then - t else t in let D := Z.abs b in
  wf (top l) /\ wf (bot l) /\
  ((~ gcd_safe (Z.max (Z.abs T) D) (Z.min (Z.abs T) D) /\ val (top l) = T /\ val (bot l) = D) \/
   ((T | D) /\ T <> 0 /\ negative (top l) = (T <? 0) /\ left_of (Z.abs T) (Z.abs T) (Z.abs (val (top l))) /\ val (bot l) = D) \/
   ((D | T) /\ D <> 0 /\ val (top l) = T / D /\ left_of D D (val (bot l)))).
