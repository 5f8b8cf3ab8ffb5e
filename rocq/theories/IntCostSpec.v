(** What the bounds on the rounds of Int's loops are stated in: the number of bins, of
    bins that are not zero, and Ints none of whose bins is zero. *)
From Verif Require Import Base IntModel.
Local Open Scope Z_scope.

Definition limbs (x : Int) : Z := Z.of_nat (length (bins x)).
Definition used (x : Int) : Z := Z.of_nat (length (List.filter (fun b => negb (b =? 0)) (bins x))).
Definition full (x : Int) : Prop := bins x <> nil /\ List.Forall (fun b => 0 < b < 1000000000) (bins x).
