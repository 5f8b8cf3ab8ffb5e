(** Numbers of operations on elements, for given weights of the operations. *)
From Coq Require Import ZArith.
From Verif Require Import CostModel.
Local Open Scope Z_scope.

(** Cofactor expansion of an n x n matrix without zeros. *)
Fixpoint expansion_ops (w : kind -> Z) (n : nat) : Z :=
  match n with
  | O => 0
  | S O => 0
  | S (S O) => 2 * w Times + w AddSub
  | S n' => Z.of_nat n * (expansion_ops w n' + w Compare + w Times + w AddSub)
  end.
Definition weights_ok (w : kind -> Z) : Prop := forall k, 0 <= w k.
Definition every_operation : kind -> Z := fun _ => 1.
