(** What "exact operations" means for an element type: every operator, on
    operands that represent a and b, returns a representation of the exact result,
    or possibly stops in one of the ways [ab] allows. *)
From Coq Require Import Ascii.
From Verif Require Import Base IntModel ElemModel.
Local Open Scope nat_scope.

(** stops at an assertion, undefined behaviour *)
Inductive halt := HAbort | HUB.
Definition stop {A} (h : halt) : res A := match h with HAbort => Abort | HUB => UB end.
Definition never (h : halt) : Prop := False.
Definition may_abort (h : halt) : Prop := h = HAbort.
Definition may_overflow (h : halt) : Prop := h = HUB.
(** m returns normally with Q, or stops in a way [ab] allows *)
Definition ret (ab : halt -> Prop) {A} (m : res A) (Q : A -> Prop) : Prop :=
  (exists a, m = Ok a /\ Q a) \/ (exists h, ab h /\ m = stop h).
Definition sret (ab : halt -> Prop) {S} (p : outcome S) (Q : S -> Prop) : Prop :=
  (snd p = Ok tt /\ Q (fst p)) \/ (exists h, ab h /\ snd p = stop h).

(** x is represented by the sequence v 0, ..., v (n-1) *)
Definition seq_of {T A} (R : T -> A -> Prop) (x : list T) (n : nat) (v : nat -> A) : Prop :=
  length x = n /\ forall i, i < n -> exists e, nth_error x i = Some e /\ R e (v i).

Section Specs.
Context {T A : Type}.
Definition binary_exact (ab : halt -> Prop) (R : T -> A -> Prop) (op : T -> T -> res T) (f : A -> A -> A) : Prop :=
  forall x y a b, R x a -> R y b -> ret ab (op x y) (fun z => R z (f a b)).
(** x op= y; the right-hand operand satisfies S, the result may be in a weaker
    representation R'. *)
Definition assign_exact (ab : halt -> Prop) (R S R' : T -> A -> Prop) (op : T -> option T -> res T) (f : A -> A -> A) : Prop :=
  (forall x y a b, R x a -> S y b -> ret ab (op x (Some y)) (fun z => R' z (f a b))) /\
  (forall x a, R x a -> S x a -> ret ab (op x None) (fun z => R' z (f a a))).
End Specs.

(** zero + g 0 + ... + g (n-1) *)
Fixpoint sum_to {A} (zero : A) (fadd : A -> A -> A) (n : nat) (g : nat -> A) : A :=
  match n with O => zero | S n' => fadd (sum_to zero fadd n' g) (g n') end.
(** the components of the cross product of v and w *)
Definition cross_at {A} (fsub fmul : A -> A -> A) (v w : nat -> A) (i : nat) : A :=
  match i with
  | 0 => fsub (fmul (v 1) (w 2)) (fmul (v 2) (w 1))
  | 1 => fsub (fmul (v 2) (w 0)) (fmul (v 0) (w 2))
  | _ => fsub (fmul (v 0) (w 1)) (fmul (v 1) (w 0))
  end.
(** texts separated by ", " *)
Fixpoint separated (l : list (list ascii)) : list ascii :=
  match l with
  | [] => []
  | [t] => t
  | t :: l' => (t ++ [","%char; " "%char] ++ separated l')%list
  end.

(** *** What an element stands for *)
From Coq Require Import QArith.
From Verif Require Import IntSpec FracModel FracSpec.
Definition R_int (x : Int) (a : Z) : Prop := canonical x /\ val x = a.
(** the result of Int's *=, whose zeros need not be canonical *)
Definition R_int0 (x : Int) (a : Z) : Prop := wf x /\ (val x <> 0%Z -> canonical x) /\ val x = a.
Definition R_frac (f : Frac) (q : Q) : Prop := reduced f /\ Fval f == q.
