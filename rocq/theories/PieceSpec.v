(** Texts of fractions, ints and vectors under given formatting flags. *)
From Coq Require Import Ascii String.
From Verif Require Import Base IntModel IntSpec IOSpec FlagsModel FlagsSpec FracModel ElemSpec.
Local Open Scope list_scope.

(** (top/bot), each part as the flags ask for *)
Definition frac_with (fl : flags) (s : list ascii) (f : Frac) : Prop :=
  exists n d, text_with fl n (val (top f)) /\ text_with fl d (val (bot f)) /\ s = "("%char :: n ++ "/"%char :: d ++ [")"%char].
(** an int; in bases 8 and 16 it is the unsigned int of the same bits that is shown
    (std::num_put, conversions %o and %x) *)
Definition int_with (fl : flags) (t : list ascii) (z : Z) : Prop := text_with fl t (match base fl with Dec => z | _ => z mod 2 ^ 32 end).
(** (e1, ..., en), each element as P says *)
Definition vec_with {T} (P : list ascii -> T -> Prop) (s : list ascii) (x : list T) : Prop :=
  exists ts, Forall2 P ts x /\ s = ["("%char] ++ separated ts ++ [")"%char].
