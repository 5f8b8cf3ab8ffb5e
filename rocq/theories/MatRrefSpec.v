(** What reduced row echelon form and row equivalence mean. *)
From mathcomp Require Import all_ssreflect all_algebra.
From Verif Require Import MatAlg.
Set Implicit Arguments. Unset Strict Implicit. Unset Printing Implicit Defensive.
Import GRing.Theory.
Local Open Scope ring_scope.

(** The n x c matrix g is in reduced row echelon form: rows 0, ..., rk - 1 have
    pivots in columns piv 0 < piv 1 < ..., the later rows are zero; a pivot is 1,
    everything left of it in its row is 0, and so is the rest of its column. *)
Definition is_rref {F : fieldType} (n c : nat) (g : nat -> nat -> F) : Prop :=
  exists (rk : nat) (piv : nat -> nat), (rk <= n)%N /\
  (forall k, (k < rk)%N -> (piv k < c)%N /\ g k (piv k) = 1 /\
     (forall i, (i < n)%N -> i <> k -> g i (piv k) = 0) /\ (forall j, (j < piv k)%N -> g k j = 0)) /\
  (forall k l, (k < l)%N -> (l < rk)%N -> (piv k < piv l)%N) /\
  (forall i j, (rk <= i < n)%N -> (j < c)%N -> g i j = 0).
(** h is obtained from g by row operations: multiplication by an invertible matrix *)
Definition row_equivalent {F : fieldType} (n c : nat) (g h : nat -> nat -> F) : Prop :=
  exists2 P : 'M[F]_n, P \in unitmx & mx n c h = P *m mx n c g.
