(** What a compound assignment of Vec, Mat, Term or Poly may leave when memory runs out. *)
From Coq Require Import QArith.
From Verif Require Import Base IntModel IntSpec FracModel FracSpec ElemModel PolyModel PolySpec AllocModel IntAllocModel IntAllocSpec FracAllocSpec ContAllocModel.
Import ListNotations.
Local Open Scope list_scope.
Local Open Scope Z_scope.

(** [p] started on x ends as [F] says, or in std::bad_alloc, and then leaves z with [L z] *)
Definition cends {S} (p : cstep S unit) (F : outcome S) (L : S -> Prop) (x : S) : Prop :=
  forall n, match p x n with
  | (z, _, Fin m) => m = snd F /\ match m with Ok _ | Throw _ => z = fst F | _ => True end
  | (z, _, NoMem) => L z
  end.

(** x op= y element by element, abandoned: the first elements are finished, one is left in
    between, those after it are as they were *)
Section Partly.
Context {T : Type} (finished between : T -> T -> T -> Prop).
Inductive partly : list T -> list T -> list T -> Prop :=
| p_here e y z x ys : between e y z -> partly (e :: x) (y :: ys) (z :: x)
| p_later e y z x ys zs : finished e y z -> partly x ys zs -> partly (e :: x) (y :: ys) (z :: zs).
(** the operand is the k-th element of x, which is v at first *)
Definition partly_own (x : list T) (k : nat) (v : T) (z : list T) : Prop :=
  partly x (repeat v (S k)) z \/ exists v', finished v v v' /\ partly x (repeat v (S k) ++ repeat v' (length x - S k)) z.
End Partly.

(** One element of Vec<Int>, Mat<Int> *)
Definition int_finished (f : Z -> Z -> Z) (e y z : Int) : Prop := wf z /\ val z = f (val e) (val y).
Definition int_sum_between half (is_sub : bool) (e y z : Int) : Prop :=
  left_by_sum half (xorb is_sub (Bool.eqb (negative e) (negative y))) e y z.
Definition int_product_between half (e y z : Int) : Prop :=
  exists r, wf r /\ val r = val e * val y /\ left_by_result half e r z.
(** One element of Vec<Frac>, Mat<Frac> *)
Definition frac_finished (f : Q -> Q -> Q) (e y z : Frac) : Prop := reduced z /\ (Fval z == f (Fval e) (Fval y))%Q.
Definition frac_between half (num den : Z -> Z -> Z -> Z -> Z) (e y z : Frac) : Prop :=
  let a := val (top e) in let b := val (bot e) in let c := val (top y) in let d := val (bot y) in
  left_top_bot half e (num a b c d) (den a b c d) z.

(** ** Terms: t *= f *)
Definition left_by_factor half (t : Term) (f : Factor) (z : Term) : Prop :=
  z = t \/ exists a g b p, factors t = a ++ (fid f, g) :: b /\
    left_by_sum half (Bool.eqb (negative (power g)) (negative (power f))) (power g) (power f) p /\
    z = mkTerm (coeff t) (a ++ (fid f, mkFactor (fid g) p) :: b).
(** t times the factors l, with the coefficient of t *)
Definition times_all (t : Term) (l : list Factor) (z : Term) : Prop :=
  coeff z = coeff t /\ map_ok (factors z) /\ (forall k, exponent z k = exponent t k + total l k) /\
  (forall k, occurs z k <-> occurs t k \/ In k (map fid l)).
(** t *= y: only some of the factors, the next one perhaps left in between; or all of them
    and a coefficient left in between *)
Definition left_by_product half (t y z : Term) : Prop :=
  (exists l f l' t1, map snd (factors y) = l ++ f :: l' /\ times_all t l t1 /\ left_by_factor half t1 f z) \/
  (exists t1, times_all t (map snd (factors y)) t1 /\ factors z = factors t1 /\
     frac_between half (fun a _ c _ => a * c) (fun _ b _ d => b * d) (coeff t) (coeff y) (coeff z)).
(** ** Polynomials: p += x. The term with the factors of x is left with a coefficient in between. *)
Definition left_by_append half (p : Poly) (x : Term) (z : Poly) : Prop :=
  z = p \/ exists a t b c, p = a ++ t :: b /\ factors t = factors x /\ z = a ++ mkTerm c (factors t) :: b /\
    frac_between half (fun a b c d => a * d + c * b) (fun _ b _ d => b * d) (coeff t) (coeff x) c.
