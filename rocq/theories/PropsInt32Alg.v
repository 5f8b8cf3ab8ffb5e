(** Property theorems about determinants of Mat<int>: C72. *)
From Verif Require Import Base IntModel ElemModel ElemSpec ElemProofs MatModel MatSpec MatProofs Int32Spec Int32Proofs.
From Verif Require PropsMat.
From mathcomp Require Import all_ssreflect all_algebra zify ssrZ.
From Verif Require Import MatAlg MatCof PropsMatAlg.
Set Implicit Arguments. Unset Strict Implicit. Unset Printing Implicit Defensive.
Import GRing.Theory.
Local Open Scope ring_scope.
Delimit Scope Z_scope with Z.

Lemma zero_fits : R32 (of_int int32_ops 0) 0.
Proof. by []. Qed.
Theorem C72_cofactor : forall n m (g : nat -> nat -> Z), mat_of R32 m n.+1 n.+1 g ->
  (row_cofactor_expansion int32_ops m = Ok (\det (mx n.+1 n.+1 g)) \/ row_cofactor_expansion int32_ops m = UB) /\
  (col_cofactor_expansion int32_ops m = Ok (\det (mx n.+1 n.+1 g)) \/ col_cofactor_expansion int32_ops m = UB).
Proof.
  move=> n m g Hm.
  have [H1 H2] := @C49_value Z _ int32_ops may_overflow R32 zero_fits
    (R32_opA Z.add (addA int32_ops) (fun _ _ => erefl) (fun _ => erefl)) (R32_opA Z.sub (subA int32_ops) (fun _ _ => erefl) (fun _ => erefl))
    (R32_op Z.sub (sub int32_ops) (fun _ _ => erefl)) (R32_op Z.mul (mul int32_ops) (fun _ _ => erefl)) R32_eq n m g Hm.
  split.
  - by move/ret_overflow: H1 => [[x [-> [-> _]]]|->]; [left|right].
  - by move/ret_overflow: H2 => [[x [-> [-> _]]]|->]; [left|right].
Qed.
(** entries up to b: nothing overflows when n! * b^n fits *)
Theorem C72_cofactor_small : forall n m (g : nat -> nat -> Z) b, mat_of R32 m n.+1 n.+1 g ->
  (forall i j, (i < n.+1)%coq_nat -> (j < n.+1)%coq_nat -> (Z.abs (g i j) <= b)%Z) -> (det_bound n.+1 b <= INT32_MAX)%Z ->
  row_cofactor_expansion int32_ops m = Ok (\det (mx n.+1 n.+1 g)) /\
  col_cofactor_expansion int32_ops m = Ok (\det (mx n.+1 n.+1 g)).
Proof.
  move=> n m g b Hm Hb Hn.
  have B0 : (0 <= b)%Z. { have Hi : (0 < n.+1)%coq_nat by lia. have := Hb 0%N 0%N Hi Hi. have := Z.abs_nonneg (g 0%N 0%N). exact: Z.le_trans. }
  have Hm' : mat_of (R32_upto b) m n.+1 n.+1 g.
  { have [H1 [H2 [H3 H]]] := Hm. split=> //. split=> //. split=> // i j Hi Hj. have [x [Ex [Hx _]]] := H i j Hi Hj. exists x. split=> //. split=> //. exact: Hb. }
  have [H1 H2] := C72_cofactor Hm. have [Dr _] := mat_of_dims _ _ _ _ _ Hm. split.
  - case: H1 => // H. have [|d E] := @row_expansion_32 b (rows m).+1 B0 n.+1 m g Hm' _ Hn; first by rewrite Dr; lia.
    by move: H; rewrite /row_cofactor_expansion E.
  - case: H2 => // H. have [|d E] := @col_expansion_32 b (rows m).+1 B0 n.+1 m g Hm' _ Hn; first by rewrite Dr; lia.
    by move: H; rewrite /col_cofactor_expansion E.
Qed.
(** 10 is small enough up to size 7; the bound is not tight *)
Theorem C72_ten : forall n m (g : nat -> nat -> Z), (n < 6)%N -> mat_of R32 m n.+1 n.+1 g ->
  (forall i j, (i < n.+1)%coq_nat -> (j < n.+1)%coq_nat -> (Z.abs (g i j) <= 10)%Z) ->
  row_cofactor_expansion int32_ops m = Ok (\det (mx n.+1 n.+1 g)) /\ col_cofactor_expansion int32_ops m = Ok (\det (mx n.+1 n.+1 g)).
Proof.
  move=> n m g Hn Hm Hb. apply: (C72_cofactor_small Hm Hb). move: Hn {Hm Hb}. do 6 (case: n => [_|n]; first by apply/Z.leb_le; vm_compute). lia.
Qed.
(** determinant() divides ints *)
Theorem C53_int32_refuted : exists m, mat_of R32 m 3 3 (fun i j => nth Z0 [:: 2; 1; 0; 1; 2; 1; 0; 1; 2]%Z (3 * i + j)%N) /\
  MatModel.determinant int32_ops m = Ok 8%Z /\ row_cofactor_expansion int32_ops m = Ok 4%Z /\ col_cofactor_expansion int32_ops m = Ok 4%Z.
Proof.
  exists (PropsMat.MZ 3%N 3%N [:: 2; 1; 0; 1; 2; 1; 0; 1; 2]%Z). split; last by vm_compute.
  split=> //. split=> //. split=> // i j Hi Hj. exists (nth Z0 [:: 2; 1; 0; 1; 2; 1; 0; 1; 2]%Z (3 * i + j)%N).
  have : (i < 3)%N by lia. have : (j < 3)%N by lia. case: i {Hi} => [|[|[|i]]] //; case: j {Hj} => [|[|[|j]]] // _ _;
    (split; [done|split=> //; split; apply/Z.leb_le; vm_compute; done]).
Qed.
Example C72_ex :
  row_cofactor_expansion int32_ops (PropsMat.MZ 3%N 3%N [:: 2; -1; 0; 7; 5; 1; 0; 3; 1000]%Z) = Ok 16994%Z /\
  col_cofactor_expansion int32_ops (PropsMat.MZ 3%N 3%N [:: 2; -1; 0; 7; 5; 1; 0; 3; 1000]%Z) = Ok 16994%Z /\
  row_cofactor_expansion int32_ops (PropsMat.MZ 3%N 3%N [:: 2; -1; 0; 7; 5; 1; 0; 3; 1000000000]%Z) = UB.
Proof. by vm_compute. Qed.
Print Assumptions C72_cofactor.
Print Assumptions C72_cofactor_small.
Print Assumptions C72_ten.
Print Assumptions C53_int32_refuted.
