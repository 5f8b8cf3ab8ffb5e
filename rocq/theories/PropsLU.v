(** Property theorems about the backward error of determinant() of Mat<double>: C115. *)
From Coq Require Import Reals QArith SpecFloat.
From Verif Require Import Base IntModel FracModel FracSpec CommonModel CommonSpec ElemModel ElemSpec VecModel MatModel MatSpec DoubleModel DoubleSpec DoubleCof LUSpec LUFinal.
Local Open Scope Z_scope.
Local Notation int := double_of_int.
Local Notation mat r c l := (mkMat r c (map Some l)).

(** ** C115: a result that is finite and not zero is nearly the determinant of a nearby matrix *)
Theorem C115_backward : forall n m g, (3 <= n)%nat -> mat_of eq m n n g -> (forall i j, (i < n)%nat -> (j < n)%nat -> double (g i j)) ->
  exists d, determinant double_ops m = Ok d /\ double d /\ (finite d -> ~ (dval d == 0)%Q ->
    (forall i j, (i < n)%nat -> (j < n)%nat -> finite (g i j)) /\ near_determinant n g d).
Proof. exact determinant_near. Qed.
(** the determinant is 45; entries below the first pivot are divided by 7 and rounded *)
Definition rows7 : Mat spec_float := mat 3 3 [int 7; int 1; int 2; int 1; int 3; int 1; int 2; int 1; int 3]%nat.
Definition entry7 (i j : nat) : spec_float := match nth_error (data rows7) (i * 3 + j) with Some (Some x) => x | _ => S754_nan end.
Example C115_ex : exists d, determinant double_ops rows7 = Ok d /\ d = S754_finite false 6333186975989761 (-47) /\ near_determinant 3 entry7 d /\
  (Qdet 3 (fun i j => dval (entry7 i j)) == 45)%Q /\ ~ (dval d == 45)%Q.
Proof.
  assert (H : mat_of eq rows7 3 3 entry7).
  { split; [reflexivity|]. split; [reflexivity|]. split; [reflexivity|]. intros i j Hi Hj.
    destruct i as [|[|[|i]]]; [..|lia]; (destruct j as [|[|[|j]]]; [..|lia]); eexists; split; reflexivity. }
  destruct (C115_backward 3 rows7 entry7 (le_n 3) H) as (d & E & _ & N).
  { intros i j Hi Hj. destruct i as [|[|[|i]]]; [..|lia]; (destruct j as [|[|[|j]]]; [..|lia]); reflexivity. }
  assert (V : determinant double_ops rows7 = Ok (S754_finite false 6333186975989761 (-47))) by (vm_compute; reflexivity).
  exists d. split; [exact E|]. rewrite V in E. injection E as <-. split; [reflexivity|]. split; [|split].
  - apply N; [exact I|]. intros Q. vm_compute in Q. discriminate Q.
  - vm_compute. reflexivity.
  - intros Q. vm_compute in Q. discriminate Q.
Qed.
Print Assumptions C115_backward.
