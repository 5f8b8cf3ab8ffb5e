(** Property theorems about elimination on Mat<double> when results are rounded: C92. *)
From Coq Require Import Reals SpecFloat.
From Verif Require Import Base IntModel FracModel FracSpec CommonModel CommonSpec ElemModel ElemSpec VecModel MatModel MatSpec DoubleModel DoubleSpec SimSpec DoubleElim.
Local Open Scope Z_scope.
Local Notation D m e := (S754_finite false m e).
Local Notation int := double_of_int.
Local Notation mat r c l := (mkMat r c (map Some l)).

(** ** C92: where determinant() and inverse() of Mat<double> are close *)
Local Open Scope R_scope.
(** 2 by 2: the error of a difference of two products *)
Theorem C92_det2_partial : forall m g, mat_of R_double m 2 2 g -> exists d, determinant double_ops m = Ok d /\
  let a := g 0%nat 0%nat in let b := g 0%nat 1%nat in let c := g 1%nat 0%nat in let d' := g 1%nat 1%nat in
  minor_close d (a * d' - b * c, Rabs (a * d') + Rabs (b * c)).
Proof. exact determinant_2_close. Qed.
(** triangular without zeros on the diagonal: n - 1 roundings, if no partial product along
    the diagonal comes near the ends of the range *)
Theorem C92_triangular_partial : forall m n g, mat_of R_double m n n g ->
  upper (fun a => a = 0) n g \/ lower (fun a => a = 0) n g -> let p k := Rprod k (fun i => g i i) in
  (forall k, (1 <= k <= n)%nat -> powerRZ 2 (-1022) <= (1 - unit_roundoff) ^ (n - 1) * Rabs (p k) /\ (1 + unit_roundoff) ^ (n - 1) * Rabs (p k) <= largest) ->
  exists d, determinant double_ops m = Ok d /\ double d /\ finite d /\ Rabs (dR d - p n) <= ((1 + unit_roundoff) ^ (n - 1) - 1) * Rabs (p n).
Proof. exact determinant_triangular_close. Qed.
(** diagonal: every entry of the inverse is correctly rounded *)
Theorem C92_diagonal_partial : forall m n v, mat_of R_double m n n (fun i j => if (i =? j)%nat then v i else 0) ->
  (forall i, (i < n)%nat -> v i <> 0 /\ Rabs (/ v i) < overflow_at) ->
  exists z, inverse double_ops m = Ok z /\ mat_of rounded z n n (fun i j => if (i =? j)%nat then / v i else 0).
Proof. exact inverse_diagonal_rounded. Qed.
Local Open Scope Z_scope.
(** the entries below the diagonal do not matter, though 0.1 * 3 / 3 is not 0.1 in double; a
    reciprocal that overflows spoils its whole column *)
Example C92_ex : determinant double_ops (mat 2 2 [int 3; int 1; int 7; int 5])%nat = Ok (int 8) /\
  determinant double_ops (mat 3 3 [int 3; int 0; int 0; D 7205759403792794 (-56); int 5; int 0; D 7205759403792794 (-54); int 1; D 7205759403792794 (-56)])%nat =
    Ok (D 6755399441055744 (-52)) /\
  inverse double_ops (mat 2 2 [int 3; int 0; int 0; int (-4)])%nat =
    Ok (mat 2 2 [D 6004799503160661 (-54); S754_zero false; S754_zero true; S754_finite true 4503599627370496 (-54)])%nat /\
  inverse double_ops (mat 2 2 [D 1 (-1074); int 0; int 0; int 1])%nat = Ok (mat 2 2 [S754_nan; S754_zero false; S754_nan; int 1])%nat.
Proof. vm_compute. auto 10. Qed.
Print Assumptions C92_det2_partial.
Print Assumptions C92_triangular_partial.
Print Assumptions C92_diagonal_partial.
