(** The determinant of a product of triangular matrices with permuted rows. *)
From Coq Require Import QArith.
From Verif Require Import Base ElemModel MatModel MatSpec MatElim DoubleSpec DoubleCof LUSpec LUProofs.
From mathcomp Require Import all_ssreflect all_algebra zify ssrZ.
From Verif Require Import MatAlg MatCof MatDet SimAlg PropsDoubleCofAlg.
Set Implicit Arguments. Unset Strict Implicit. Unset Printing Implicit Defensive.
Import GRing.Theory.
Local Open Scope ring_scope.
Local Notation fractions g := (fun i j => ratQ (g i j)).

Lemma ratQ_prod n f : ratQ (Qprod n f) = \prod_(0 <= k < n) ratQ (f k).
Proof. elim: n => [|n IH]; first by rewrite big_nil. by rewrite big_nat_recr //= ratQ_mul IH. Qed.
Lemma det_lower n (h : nat -> nat -> rat) : (forall i j, (i < j)%N -> (j < n)%N -> h i j = 0) -> \det (mx n n h) = \prod_(0 <= i < n) h i i.
Proof.
  move=> H. rewrite -det_tr -(@det_upper _ n (fun i j => h j i)).
  - apply: f_equal. apply/matrixP => i j. by rewrite !mxE.
  - move=> i j Hij Hi. exact: H.
Qed.
Lemma det_moves n b q : moves n b q -> forall M : nat -> nat -> Q,
  (forall i, (i < n)%N -> (q i < n)%N /\ Qeq (M i (q i)) 1 /\ forall k, (q i < k)%N -> (k < n)%N -> Qeq (M i k) 0) ->
  \det (mx n n (fractions M)) = (-1) ^+ (b : bool).
Proof.
  move=> Mv. elim: Mv => {b q} [|b q x y Hx Hy N Mv IH] M H.
  - rewrite det_lower.
    + rewrite big_mkord big1 // => i _. have [_ [E _]] := H i (ltn_ord i). move/ratQ_eq: E => ->. by [].
    + move=> i j Hij Hj. have [|_ [_ Z]] := H i; first by lia. apply/ratQ_eq0. exact: Z.
  - have T : forall i, trans x y (trans x y i) = i.
    { move=> i. rewrite /trans. destruct (PeanoNat.Nat.eqb_spec i x), (PeanoNat.Nat.eqb_spec i y). all: repeat match goal with |- context [PeanoNat.Nat.eqb ?a ?b] => destruct (PeanoNat.Nat.eqb_spec a b) end; lia. }
    have Tn : forall i, (i < n)%N -> (trans x y i < n)%N.
    { move=> i Hi. rewrite /trans. repeat match goal with |- context [PeanoNat.Nat.eqb ?a ?b] => destruct (PeanoNat.Nat.eqb_spec a b) end; lia. }
    have D := IH (fun i => M (trans x y i)).
    have E : \det (mx n n (fractions (fun i => M (trans x y i)))) = - \det (mx n n (fractions M)).
    { have := @det_trans _ n (fractions M) x y. cbv zeta beta => A. apply: A => //; lia. }
    rewrite E in D. rewrite -[LHS]opprK D.
    + case: (b) => /=; by rewrite ?expr0 ?expr1 ?opprK.
    + move=> i Hi. have := H (trans x y i) (Tn i Hi). rewrite T. by [].
Qed.
Theorem det_factors n b q M U : moves n b q ->
  (forall i, (i < n)%coq_nat -> (q i < n)%coq_nat /\ Qeq (M i (q i)) 1 /\ forall k, (q i < k)%coq_nat /\ (k < n)%coq_nat -> Qeq (M i k) 0) ->
  (forall i j, (j < i)%coq_nat /\ (i < n)%coq_nat -> Qeq (U i j) 0) ->
  Qeq (Qdet n (Qmat n M U)) (Qmult (if b then Qopp (inject_Z 1) else inject_Z 1) (Qprod n (fun k => U k k))).
Proof.
  move=> Mv HM HU. apply/ratQ_eq. rewrite Qdet_ok ratQ_mul ratQ_prod.
  have -> : mx n n (fractions (Qmat n M U)) = mx n n (fractions M) *m mx n n (fractions U).
  { rewrite mx_mul. apply: mx_ext => i j _ _. rewrite /Qmat ratQ_sum. by apply: eq_bigr => k _; rewrite ratQ_mul. }
  rewrite det_mulmx (det_moves Mv) ?(@det_upper _ n (fractions U)).
  - congr (_ * _). by case: (b).
  - move=> i j Hij Hi. apply/ratQ_eq0. apply: HU. lia.
  - move=> i Hi. have [|A [B C]] := HM i; first by lia. split; first by lia. split=> // k Hk Hn. apply: C. lia.
Qed.
