(** How an operation in place ends without assertions, compared with the same one with them. *)
From Verif Require Import Base ReleaseSpec.

(** A failed assertion has become std::out_of_range; where none fails the object is the same
    too. *)
Definition agree {A} (p p' : A * res unit) : Prop := snd p' = released (snd p) /\ (snd p <> Abort -> p' = p).
