(** Evaluating an expression in any order: at each moment any call whose operands are known may
    run next, and the first one that fails ends the evaluation. *)
From Verif Require Import Base OrderModel.

(** How a call can fail *)
Inductive failure := Threw (e : exn) | Asserted | Undefined | Endless.
Definition failed {A} (x : failure) : res A :=
  match x with Threw e => Throw e | Asserted => Abort | Undefined => UB | Endless => OutOfFuel end.

Section Order.
Context {A C : Type}.
Inductive step : expr A -> expr A -> Prop :=
| s_do f a b c : f a b = Ok c -> step (Node f (Leaf a) (Leaf b)) (Leaf c)
| s_left f l l' r : step l l' -> step (Node f l r) (Node f l' r)
| s_right f l r r' : step r r' -> step (Node f l r) (Node f l r').
Inductive stops : expr A -> failure -> Prop :=
| t_do f a b x : f a b = failed x -> stops (Node f (Leaf a) (Leaf b)) x
| t_left f l r x : stops l x -> stops (Node f l r) x
| t_right f l r x : stops r x -> stops (Node f l r) x.
(** The possible outcomes of k (l, r) *)
Inductive may_give (k : A -> A -> res C) : expr A * expr A -> res C -> Prop :=
| g_call a b : may_give k (Leaf a, Leaf b) (k a b)
| g_left l l' r m : step l l' -> may_give k (l', r) m -> may_give k (l, r) m
| g_right l r r' m : step r r' -> may_give k (l, r') m -> may_give k (l, r) m
| g_stop_left l r x : stops l x -> may_give k (l, r) (failed x)
| g_stop_right l r x : stops r x -> may_give k (l, r) (failed x).
End Order.
