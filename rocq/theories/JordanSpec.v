(** What row reduction with rounding computes: an exact reduced row echelon form of a matrix
    near the given one. *)
From Coq Require Import Reals Qreals QArith Qabs List SpecFloat.
From Verif Require Import FracSpec CommonSpec DoubleSpec DoubleCof LUSpec.
Local Open Scope nat_scope.

(** One step as a matrix: rows [other] and [row] are exchanged, then row [row] counts
    [mult row] times and is added [mult a] times to every other row a *)
Record step := mkStep { other : nat; row : nat; mult : nat -> Q }.
Definition exchanged (x r i : nat) : nat := if i =? x then r else if i =? r then x else i.
Definition step_matrix (s : step) (i k : nat) : Q :=
  let a := exchanged (other s) (row s) i in if k =? row s then mult s a else if k =? a then 1%Q else 0%Q.
(** steps on rows r, r+1, ... of n: row r is exchanged with itself or a later one, the
    multipliers are finite doubles, and the one of row r is not zero *)
Fixpoint valid_steps (n r : nat) (l : list step) : Prop :=
  match l with
  | nil => True
  | (s :: l)%list => row s = r /\ r <= other s < n /\ ~ (mult s r == 0)%Q /\
      (forall a, a < n -> exists d, double d /\ finite d /\ mult s a = dval d) /\ valid_steps n (S r) l
  end.
Definition abs (m : nat -> nat -> Q) (i j : nat) : Q := Qabs (m i j).
Definition identity (i j : nat) : Q := if i =? j then 1%Q else 0%Q.
(** the product of the steps, the same of absolute values, and the sum of the products of
    the first, the first two, ... absolute values *)
Fixpoint product (n : nat) (l : list step) : nat -> nat -> Q :=
  match l with nil => identity | (s :: l)%list => Qmat n (step_matrix s) (product n l) end.
Fixpoint sizes (n : nat) (l : list step) : nat -> nat -> Q :=
  match l with nil => identity | (s :: l)%list => Qmat n (abs (step_matrix s)) (sizes n l) end.
Fixpoint stages (n : nat) (l : list step) : nat -> nat -> Q :=
  match l with nil => fun _ _ => 0%Q | (s :: l)%list => fun i j => (Qabs (step_matrix s i j) + Qmat n (abs (step_matrix s)) (stages n l) i j)%Q end.
(** a is the product of the steps and h, up to rounding *)
Definition near_steps (n c : nat) (l : list step) (a h : nat -> nat -> Q) : Prop := forall i j, i < n -> j < c ->
  (Rabs (Q2R (a i j) - Q2R (Qmat n (product n l) h i j)) <=
    ((1 + unit_roundoff) ^ length l - 1) * Q2R (Qmat n (sizes n l) (abs h) i j) + (1 + unit_roundoff) ^ length l * half_least * Q2R (Qsum n (stages n l i)))%R.
(** reduced row echelon form with pivots in columns piv 0 < ... < piv (rank-1) *)
Definition reduced_form (n c rank : nat) (piv : nat -> nat) (h : nat -> nat -> Q) : Prop :=
  rank <= n /\
  (forall a, a < rank -> piv a < c /\ (h a (piv a) == 1)%Q /\ (forall j, j < piv a -> (h a j == 0)%Q) /\ (forall i, i < n -> i <> a -> (h i (piv a) == 0)%Q)) /\
  (forall a b, a < b < rank -> piv a < piv b) /\
  (forall i j, rank <= i < n -> j < c -> (h i j == 0)%Q).
