(** The determinant of a product of row reduction steps. *)
From Coq Require Import QArith List.
From Verif Require Import Base ElemModel MatModel MatSpec MatElim DoubleSpec DoubleCof LUSpec JordanSpec.
From mathcomp Require Import all_ssreflect all_algebra zify ssrZ.
From Verif Require Import MatAlg MatCof MatDet SimAlg PropsDoubleCofAlg LUAlg.
Set Implicit Arguments. Unset Strict Implicit. Unset Printing Implicit Defensive.
Import GRing.Theory.
Local Open Scope ring_scope.
Local Notation fractions g := (fun i j => ratQ (g i j)).
Local Notation eqn := PeanoNat.Nat.eqb.

(** a step without the exchange *)
Lemma det_column n r (f : nat -> rat) : (r < n)%N -> \det (mx n n (fun i k => if eqn k r then f i else if eqn k i then 1 else 0)) = f r.
Proof.
  case: n => // n Hr. set M := mx _ _ _. rewrite (expand_det_row M (Ordinal Hr)) (bigD1 (Ordinal Hr)) //= big1 ?addr0.
  - rewrite /M mxE /= PeanoNat.Nat.eqb_refl /cofactor -/M -signr_odd oddD addbb expr0 mul1r.
    have -> : row' (Ordinal Hr) (col' (Ordinal Hr) M) = 1%:M.
    { apply/matrixP => i j. rewrite !mxE /=. case: PeanoNat.Nat.eqb_spec => [E|_]; first by move: (neq_bump r j); rewrite E eqxx.
      case: PeanoNat.Nat.eqb_spec => [E|E].
      - have -> : i = j by apply: ord_inj; exact: esym (can_inj (bumpK r) E). by rewrite eqxx.
      - case: eqP => // Ej. by rewrite Ej in E. }
    by rewrite matrix.det1 mulr1.
  - move=> k Hk. rewrite /M mxE /=. destruct (PeanoNat.Nat.eqb_spec k r) as [E|E]; last by rewrite mul0r.
    case/negP: Hk. apply/eqP. exact: val_inj.
Qed.
Lemma det_step n s : (other s < n)%N -> (JordanSpec.row s < n)%N -> \det (mx n n (fractions (step_matrix s))) = ratQ (mult s (JordanSpec.row s)) \/ \det (mx n n (fractions (step_matrix s))) = - ratQ (mult s (JordanSpec.row s)).
Proof.
  move=> Hx Hr. set f := fun a => ratQ (mult s a). rewrite -[ratQ (mult s (JordanSpec.row s))]/(f (JordanSpec.row s)) -(det_column f Hr). set h := fun i k => if eqn k (JordanSpec.row s) then f i else if eqn k i then 1 else 0.
  have E : mx n n (fractions (step_matrix s)) = mx n n (fun i k => h (trans (other s) (JordanSpec.row s) i) k).
  { apply: mx_ext => i k _ _. rewrite /step_matrix /h /f -[exchanged _ _ i]/(trans (other s) (JordanSpec.row s) i). by case: eqn => //; case: eqn. }
  rewrite E. case: (PeanoNat.Nat.eq_dec (other s) (JordanSpec.row s)) => N.
  - left. congr (\det _). apply: mx_ext => i k _ _. congr (h _ k). rewrite /trans N. by destruct (PeanoNat.Nat.eqb_spec i (JordanSpec.row s)) as [->|].
  - right. have := @det_trans _ n h (other s) (JordanSpec.row s). cbv zeta beta => A. apply: A => //; lia.
Qed.
Theorem det_steps n r l : valid_steps n r l -> ~ Qeq (Qdet n (product n l)) 0.
Proof.
  move=> Hl. suff : \det (mx n n (fractions (product n l))) != 0 by move=> H /ratQ_eq0; rewrite Qdet_ok => E; rewrite E eqxx in H.
  elim: l r Hl => [|s l IH] r /=; last first; first move=> [Hr [Hx [Hm [_ Hl]]]].
  - have -> : mx n n (fractions (Qmat n (step_matrix s) (product n l))) = mx n n (fractions (step_matrix s)) *m mx n n (fractions (product n l)).
    { rewrite mx_mul. apply: mx_ext => i j _ _. rewrite /Qmat ratQ_sum. by apply: eq_bigr => k _; rewrite ratQ_mul. }
    rewrite det_mulmx mulf_neq0 //; last exact: IH Hl. have N : ratQ (mult s (JordanSpec.row s)) != 0 by rewrite Hr; apply/eqP => /ratQ_eq0.
    case: (@det_step n s); [by lia|by lia|by move=> ->|by move=> ->; rewrite oppr_eq0].
  - move=> _. have -> : mx n n (fractions identity) = 1%:M.
    { apply/matrixP => i j. rewrite !mxE /identity. destruct (PeanoNat.Nat.eqb_spec i j) as [E|E].
      - have -> : i = j by exact: val_inj. by rewrite eqxx.
      - case: eqP => // Ej. by rewrite Ej in E. }
    by rewrite matrix.det1 oner_eq0.
Qed.
