(** Property theorems about the backward error of rref() and inverse() of Mat<double>: C116. *)
From Coq Require Import Reals Qreals QArith Qabs SpecFloat.
From Verif Require Import Base IntModel FracModel FracSpec CommonModel CommonSpec ElemModel ElemSpec VecModel MatModel MatSpec DoubleModel DoubleSpec DoubleCof LUSpec JordanSpec JordanFinal.
Local Open Scope Z_scope.
Local Notation int := double_of_int.
Local Notation mat r c l := (mkMat r c (map Some l)).

(** ** C116: a result of rref() whose entries are finite is exactly in reduced row echelon form,
    and the product of it and one invertible step for every row that is not zero is near the
    given matrix *)
Theorem C116_rref : forall n c m g, mat_of eq m n c g -> (forall i j, (i < n)%nat -> (j < c)%nat -> double (g i j)) ->
  exists z h, rref double_ops m = Ok z /\ mat_of eq z n c h /\ (forall i j, (i < n)%nat -> (j < c)%nat -> double (h i j)) /\
    ((forall i j, (i < n)%nat -> (j < c)%nat -> finite (h i j)) -> (forall i j, (i < n)%nat -> (j < c)%nat -> finite (g i j)) /\
      exists piv l, valid_steps n 0 l /\ ~ (Qdet n (product n l) == 0)%Q /\
        reduced_form n c (length l) piv (fun i j => dval (h i j)) /\ near_steps n c l (fun i j => dval (g i j)) (fun i j => dval (h i j))).
Proof. exact rref_near. Qed.
(** inverse(): one and the same invertible matrix is near the given one and has the result nearly
    as its inverse *)
Theorem C116_inverse : forall n m g, mat_of eq m n n g -> (forall i j, (i < n)%nat -> (j < n)%nat -> double (g i j)) ->
  inverse double_ops m = Throw DomainError \/
  exists z h, inverse double_ops m = Ok z /\ mat_of eq z n n h /\ (forall i j, (i < n)%nat -> (j < n)%nat -> double (h i j)) /\
    ((forall i j, (i < n)%nat -> (j < n)%nat -> finite (h i j)) -> (forall i j, (i < n)%nat -> (j < n)%nat -> finite (g i j)) /\
      exists l, length l = n /\ valid_steps n 0 l /\ ~ (Qdet n (product n l) == 0)%Q /\
        near_steps n n l (fun i j => dval (g i j)) identity /\ near_steps n n l identity (fun i j => dval (h i j))).
Proof. exact inverse_near. Qed.
(** so the product of the matrix and the computed inverse is near the identity *)
Theorem C116_residual : forall n l a z, near_steps n n l a identity -> near_steps n n l identity z -> forall i j, (i < n)%nat -> (j < n)%nat ->
  (Rabs (Q2R (Qmat n a z i j) - Q2R (identity i j)) <=
    2 * (((1 + unit_roundoff) ^ length l - 1) * Q2R (Qmat n (sizes n l) (abs z) i j)) +
    (1 + unit_roundoff) ^ length l * half_least * Q2R (Qsum n (stages n l i)) * (1 + Q2R (Qsum n (fun k => Qabs (z k j)))))%R.
Proof. exact near_residual. Qed.

(** the inverse of 3 1 | 1 2 has entries 2/5, -1/5, -1/5, 3/5, which are no doubles *)
Definition rows32 : Mat spec_float := mat 2 2 [int 3; int 1; int 1; int 2]%nat.
Definition at22 (m : Mat spec_float) (i j : nat) : spec_float := match nth_error (data m) (i * 2 + j) with Some (Some x) => x | _ => S754_nan end.
Definition inv32 : Mat spec_float := mat 2 2 [S754_finite false 7205759403792793 (-54); S754_finite true 7205759403792793 (-55); S754_finite true 7205759403792793 (-55); S754_finite false 5404319552844595 (-53)]%nat.
Lemma at22_ok m : rows m = 2%nat -> cols m = 2%nat -> length (data m) = 4%nat -> Forall (fun o => exists d, o = Some d) (data m) -> mat_of eq m 2 2 (at22 m).
Proof.
  destruct m as [r c d]. cbn [rows cols data]. intros -> -> L F. split; [reflexivity|]. split; [reflexivity|]. split; [exact L|]. cbn [data].
  destruct d as [|a [|b [|e [|f [|]]]]]; try discriminate L. inversion F as [|? ? [a' ->] F1]. inversion F1 as [|? ? [b' ->] F2]. inversion F2 as [|? ? [e' ->] F3]. inversion F3 as [|? ? [f' ->] F4]. subst.
  intros i j Hi Hj. destruct i as [|[|i]]; [..|lia]; (destruct j as [|[|j]]; [..|lia]); eexists; split; reflexivity.
Qed.
Example C116_ex : inverse double_ops rows32 = Ok inv32 /\ (exists l, length l = 2%nat /\ valid_steps 2 0 l /\
    near_steps 2 2 l (fun i j => dval (at22 rows32 i j)) identity /\ near_steps 2 2 l identity (fun i j => dval (at22 inv32 i j))) /\
  ~ (Qmat 2 (fun i j => dval (at22 rows32 i j)) (fun i j => dval (at22 inv32 i j)) 1 1 == 1)%Q.
Proof.
  assert (E : inverse double_ops rows32 = Ok inv32) by (vm_compute; reflexivity). split; [exact E|]. split.
  - assert (M : mat_of eq rows32 2 2 (at22 rows32)) by (apply at22_ok; [reflexivity..|repeat constructor; eexists; reflexivity]).
    destruct (C116_inverse 2 rows32 (at22 rows32) M) as [H|(z & h & Ez & Hz & Hd & H)].
    + intros i j Hi Hj. destruct i as [|[|i]]; [..|lia]; (destruct j as [|[|j]]; [..|lia]); reflexivity.
    + rewrite E in H. discriminate H.
    + rewrite E in Ez. injection Ez as <-. destruct Hz as (_ & _ & _ & Hz).
      assert (Eh : forall i j, (i < 2)%nat -> (j < 2)%nat -> h i j = at22 inv32 i j).
      { intros i j Hi Hj. destruct (Hz i j Hi Hj) as (d & Ed & <-). unfold at22. rewrite Ed. reflexivity. }
      assert (Fh : forall i j, (i < 2)%nat -> (j < 2)%nat -> finite (at22 inv32 i j)).
      { intros i j Hi Hj. destruct i as [|[|i]]; [..|lia]; (destruct j as [|[|j]]; [..|lia]); vm_compute; exact I. }
      destruct H as (_ & l & L & V & _ & N1 & N2); [intros i j Hi Hj; rewrite Eh by auto; apply Fh; auto|].
      exists l. split; [exact L|]. split; [exact V|]. split; [exact N1|]. intros i j Hi Hj. specialize (N2 i j Hi Hj). unfold Qmat, Qsum, abs in *. rewrite !Eh in N2 by auto. exact N2.
  - intros Q. vm_compute in Q. discriminate Q.
Qed.
(** a matrix of rank 2 whose reduced form is 1 0 -1 | 0 1 2 | 0 0 0: here it is found exactly,
    with one zero that is -0 *)
Definition rows123 : Mat spec_float := mat 3 3 [int 1; int 2; int 3; int 4; int 5; int 6; int 7; int 8; int 9]%nat.
Example C116_ex_rref : rref double_ops rows123 = Ok (mat 3 3 [int 1; int 0; int (-1); S754_zero true; int 1; int 2; int 0; int 0; int 0]%nat).
Proof. vm_compute. reflexivity. Qed.
Print Assumptions C116_rref.
Print Assumptions C116_inverse.
Print Assumptions C116_residual.
