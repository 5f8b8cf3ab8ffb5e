(** Property theorems about cofactor expansion on Mat<double>: how far the result is from the
    determinant, C93. *)
From Coq Require Import QArith Reals Qreals SpecFloat.
From Verif Require Import Base IntModel IntSpec FracModel FracSpec CommonModel CommonSpec ElemModel ElemSpec ElemProofs VecModel MatModel MatSpec MatProofs
  DoubleModel DoubleSpec DoubleCof.
From mathcomp Require Import all_ssreflect all_algebra zify ssrZ.
From Verif Require Import MatAlg MatCof SimAlg.
Set Implicit Arguments. Unset Strict Implicit. Unset Printing Implicit Defensive.
Import GRing.Theory.
Local Open Scope ring_scope.
Delimit Scope Z_scope with Z.
Local Notation D := double_ops.
Local Notation fractions g := (fun i j => ratQ (g i j)).
Local Notation reals g := (fun i j => Q2R (g i j)).

Lemma ratQ_sum n f : ratQ (Qsum n f) = \sum_(0 <= k < n) ratQ (f k).
Proof. elim: n => [|n IH]; first by rewrite big_nil. by rewrite big_nat_recr //= ratQ_add IH. Qed.
Lemma ratQ_sign k : ratQ (Qsign k) = (-1) ^+ k.
Proof. elim: k => [|k IH] /=; first by rewrite expr0. by rewrite ratQ_opp IH exprS mulN1r. Qed.
Lemma without_minor n p q (g : nat -> nat -> Q) : mx n n (fractions (without p q g)) = mx n n (minor p q (fractions g)).
Proof. apply: mx_ext => i j _ _. rewrite /minor /without -!skip_bump /skip !PeanoNat.Nat.add_1_r. by []. Qed.
Lemma Qdet_ok n : forall g, ratQ (Qdet n g) = \det (mx n n (fractions g)).
Proof.
  elim: n => [|n IH] g; first by rewrite det0. rewrite det_row -/(ratQ _). cbn [Qdet]. rewrite ratQ_sum. apply: eq_bigr => k _.
  by rewrite !ratQ_mul ratQ_sign IH without_minor.
Qed.
Lemma Qdet_col_ok n : forall g, ratQ (Qdet_col n g) = \det (mx n n (fractions g)).
Proof.
  elim: n => [|n IH] g; first by rewrite det0. rewrite det_col. cbn [Qdet_col]. rewrite ratQ_sum. apply: eq_bigr => k _.
  by rewrite !ratQ_mul ratQ_sign IH without_minor.
Qed.

(** ** C93: cofactor expansion of a matrix of doubles *)
Theorem C93_row n e m (g : nat -> nat -> Q) : mat_of R_double m n.+1 n.+1 (reals g) -> coarse n.+1 e (reals g) ->
  exists d q, row_cofactor_expansion D m = Ok d /\ \det (mx n.+1 n.+1 (fractions g)) = ratQ q /\ det_close n.+1 d (Q2R q) (Rperm n.+1 (reals g)) /\
  forall b, det_fits n.+1 b -> at_most n.+1 b (reals g) -> finite d.
Proof.
  move=> Hm Hc. have [d [E [D1 D2]]] := row_cofactor_close n.+1 e m _ (Peano.le_n_S _ _ (PeanoNat.Nat.le_0_l n)) Hm Hc.
  exists d, (Qdet n.+1 g). rewrite Qdet_ok Q2R_det. by [].
Qed.
Theorem C93_col n e m (g : nat -> nat -> Q) : mat_of R_double m n.+1 n.+1 (reals g) -> coarse n.+1 e (reals g) ->
  exists d q, col_cofactor_expansion D m = Ok d /\ \det (mx n.+1 n.+1 (fractions g)) = ratQ q /\ det_close n.+1 d (Q2R q) (Rperm_col n.+1 (reals g)) /\
  forall b, det_fits n.+1 b -> at_most n.+1 b (reals g) -> finite d.
Proof.
  move=> Hm Hc. have [d [E [D1 D2]]] := col_cofactor_close n.+1 e m _ (Peano.le_n_S _ _ (PeanoNat.Nat.le_0_l n)) Hm Hc.
  exists d, (Qdet_col n.+1 g). rewrite Qdet_col_ok Q2R_det_col. by [].
Qed.
Print Assumptions C93_row.
Print Assumptions C93_col.
