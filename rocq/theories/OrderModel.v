(** Expressions whose operands C++ may evaluate in any order: the operands of a binary operator
    and the arguments of a call, also interleaved with one another. An expression is a tree of
    calls; the rest of the model evaluates it from left to right ([in_order]). *)
From Verif Require Import Base IntModel FracModel PropsFrac ElemModel.

Inductive expr (A : Type) := Leaf (a : A) | Node (f : A -> A -> res A) (l r : expr A).
Arguments Leaf {A} a.
Arguments Node {A} f l r.
Fixpoint in_order {A} (e : expr A) : res A :=
  match e with
  | Leaf a => Ok a
  | Node f l r => a <- in_order l ;; b <- in_order r ;; f a b
  end.
(** A call with two arguments, or an operator with another result type *)
Definition call_in_order {A C} (p : expr A * expr A) (k : A -> A -> res C) : res C :=
  a <- in_order (fst p) ;; b <- in_order (snd p) ;; k a b.

Section Frac.
(** *, +, - and ^ of Int, with or without assertions *)
Variables mu ad su po : Int -> Int -> res Int.
Local Notation "x .* y" := (Node mu (Leaf x) (Leaf y)) (at level 40).
(** The arguments of the constructor in x + y, x - y, x * y, x / y -- src/Frac.hpp:47-50;
    those of the sums are also the operands in x += y and x -= y -- src/Frac.cpp:160, 166 *)
Definition bin_args (o : fop) (x y : Frac) : expr Int * expr Int :=
  match o with
  | FAdd => (Node ad (top x .* bot y) (top y .* bot x), bot x .* bot y)
  | FSub => (Node su (top x .* bot y) (top y .* bot x), bot x .* bot y)
  | FMul => (top x .* top y, bot x .* bot y)
  | FDiv => (top x .* bot y, bot x .* top y)
  end.
(** src/Frac.hpp:52-55 *)
Definition intl_args (o : fop) (a : Int) (x : Frac) : expr Int * expr Int :=
  match o with
  | FAdd => (Node ad (a .* bot x) (Leaf (top x)), Leaf (bot x))
  | FSub => (Node su (a .* bot x) (Leaf (top x)), Leaf (bot x))
  | FMul => (a .* top x, Leaf (bot x))
  | FDiv => (a .* bot x, Leaf (top x))
  end.
(** src/Frac.hpp:57-60 *)
Definition intr_args (o : fop) (x : Frac) (a : Int) : expr Int * expr Int :=
  match o with
  | FAdd => (Node ad (Leaf (top x)) (a .* bot x), Leaf (bot x))
  | FSub => (Node su (Leaf (top x)) (a .* bot x), Leaf (bot x))
  | FMul => (a .* top x, Leaf (bot x))
  | FDiv => (Leaf (top x), bot x .* a)
  end.
(** The two sides of x < y -- src/Frac.hpp:42 *)
Definition lt_sides (x y : Frac) : expr Int * expr Int := (top x .* bot y, top y .* bot x).
(** src/Frac.cpp:184-191, where e is the exponent without its sign *)
Definition pow_args (flip : bool) (x : Frac) (e : Int) : expr Int * expr Int :=
  let t := Node po (Leaf (top x)) (Leaf e) in
  let b := Node po (Leaf (bot x)) (Leaf e) in
  if flip then (b, t) else (t, b).
End Frac.

(** One element of a cross product: a * b - c * d -- src/Vec.hpp:262-264; also the determinant
    of a 2 x 2 matrix -- src/Mat.hpp:307, 329, 364 *)
Definition cross_sides {T} (E : ops T) (a b c d : T) : expr T * expr T :=
  (Node (mul E) (Leaf a) (Leaf b), Node (mul E) (Leaf c) (Leaf d)).
