(** Property theorems about elimination on Mat<double> when results are rounded: what goes
    wrong, C92; determinants of lower triangular matrices of Int, C53. *)
From Coq Require Import QArith SpecFloat.
From Verif Require Import Base IntModel IntSpec FracModel FracSpec CommonModel CommonSpec ElemModel ElemSpec ElemProofs VecModel MatModel MatSpec MatProofs
  DoubleModel SimSpec SimProofs SimInst TriInst.
From Verif Require PropsMat.
From mathcomp Require Import all_ssreflect all_algebra zify ssrZ.
From Verif Require Import MatAlg MatCof MatRrefSpec SimAlg.
Set Implicit Arguments. Unset Strict Implicit. Unset Printing Implicit Defensive.
Import GRing.Theory.
Local Open Scope ring_scope.
Delimit Scope Z_scope with Z.
Local Notation D := double_ops.
(** a double, and the rational number it holds *)
Local Notation holds := (fun d q => is_double q d).
Local Notation fractions g := (fun i j => ratQ (g i j)).
Local Notation int := double_of_int.
(** 2^-60 and the double nearest to 1/3 *)
Local Notation tiny := (S754_finite false 4503599627370496 (-112)).
Local Notation third := (S754_finite false 6004799503160661 (-54)).
Local Notation mat n l := (mkMat n n (List.map Some l)).
(** the entries of a list, row by row *)
Local Notation rows_of n l := (fun i j => List.nth (i * n + j) (List.map dval l) (inject_Z 0)).

Lemma list_holds n (l : seq.seq spec_float) : List.length l = (n * n)%coq_nat -> List.Forall (fun d => CommonSpec.double d /\ finite d) l -> mat_of holds (mat n l) n n (rows_of n l).
Proof.
  move=> L F. split=> //. split=> //. split; first by rewrite /= List.map_length.
  move=> i j Hi Hj. have Lij : (i * n + j < List.length l)%coq_nat by rewrite L; nia.
  case E : (List.nth_error l (i * n + j)) => [d|]; last by move/List.nth_error_None in E; lia.
  exists d. rewrite /= (List.map_nth_error _ _ _ E). split=> //. have [Dd Fd] : CommonSpec.double d /\ finite d by move/List.Forall_forall: F; apply; exact: List.nth_error_In E.
  split=> //. split=> //. by rewrite (List.nth_error_nth _ _ _ (List.map_nth_error dval _ _ E)).
Qed.
(** the exact results, by exact arithmetic *)
Local Notation W := (watched (fun _ => true)).
Lemma exact_det n (g : nat -> nat -> Q) q : MatModel.determinant W (table n n g) = Ok q -> \det (mx n n (fractions g)) = ratQ q.
Proof. move=> E. symmetry. apply: (watched_determinant _ E). exact: table_rat. Qed.
Lemma exact_inverse n (g h : nat -> nat -> Q) : inverse W (table n n g) = Ok (table n n h) -> mx n n (fractions h) *m mx n n (fractions g) = 1%:M.
Proof.
  move=> E. have [h' [[_ [_ [_ Hh']]] <-]] := watched_inverse (table_rat n n g) E. congr (_ *m _). apply: mx_ext => i j Hi Hj.
  have Hi' : (i < n)%coq_nat by lia. have Hj' : (j < n)%coq_nat by lia.
  have [x [Ex Hx]] := Hh' i j Hi' Hj'. have [_ [_ [_ Ht]]] := table_rat n n h. have [y [Ey Hy]] := Ht i j Hi' Hj'. move: Ey. rewrite Ex => -[Exy]. rewrite -Exy in Hy. by rewrite -Hy.
Qed.

(** ** C92: elimination chooses the first pivot that is not zero, however small, so rounding
    can make every digit of the result wrong *)
(** an inverse is 0 where it should be below -1 *)
Theorem C92_inverse_refuted : exists m g z k (h : nat -> nat -> Q), mat_of holds m 2%N 2%N g /\ inverse D m = Ok z /\ mat_of holds z 2%N 2%N k /\
  mx 2 2 (fractions h) *m mx 2 2 (fractions g) = 1%:M /\ Qeq (k 0%N 0%N) (inject_Z 0) /\ Qlt (h 0%N 0%N) (inject_Z (-1)).
Proof.
  pose l := [:: tiny; int 1; int 1; int 1]. pose z := [:: S754_zero false; int 1; int 1; S754_finite true 4503599627370496 (-112)].
  pose d := (1152921504606846975)%positive.
  pose h := fun i j => List.nth (i * 2 + j) [:: Qmake (-1152921504606846976) d; Qmake 1152921504606846976 d; Qmake 1152921504606846976 d; Qmake (-1) d] (inject_Z 0).
  exists (mat 2%N l), (rows_of 2%N l), (mat 2%N z), (rows_of 2%N z), h.
  split; first by apply: list_holds => //; repeat constructor. split; first by vm_compute. split; first by apply: list_holds => //; repeat constructor.
  split; first by apply: exact_inverse; vm_compute. by split; vm_compute.
Qed.
(** a singular matrix of integers has an inverse *)
Theorem C92_singular_refuted : exists m g z, mat_of holds m 2%N 2%N g /\ \det (mx 2 2 (fractions g)) = 0 /\ inverse D m = Ok z.
Proof.
  pose l := [:: int 49; int 1; int 49; int 1].
  exists (mat 2%N l), (rows_of 2%N l). eexists. split; first by apply: list_holds => //; repeat constructor.
  split; last by vm_compute. by rewrite (@exact_det _ _ (inject_Z 0)) ?ratQ_int; vm_compute.
Qed.
(** a matrix that has an inverse is rejected *)
Theorem C92_throws_refuted : exists m g, mat_of holds m 2%N 2%N g /\ \det (mx 2 2 (fractions g)) <> 0 /\ inverse D m = Throw DomainError.
Proof.
  pose l := [:: int 3; int 1; int 1; third].
  exists (mat 2%N l), (rows_of 2%N l). split; first by apply: list_holds => //; repeat constructor.
  split; last by vm_compute. rewrite (@exact_det _ _ (Qmake (-1) 18014398509481984)); [|by vm_compute]. by move/ratQ_eq0.
Qed.
(** the determinant is 0 although it should be above 1.9, and cofactor expansion finds 2 *)
Theorem C92_determinant_refuted : exists m g d q, mat_of holds m 3%N 3%N g /\ MatModel.determinant D m = Ok d /\ is_double 0 d /\
  \det (mx 3 3 (fractions g)) = ratQ q /\ Qlt (Qmake 19 10) q /\ row_cofactor_expansion D m = Ok (int 2).
Proof.
  pose l := [:: tiny; int 1; int 1; int 1; int 1; int 2; int 1; int 2; int 1].
  exists (mat 3%N l), (rows_of 3%N l), (S754_zero true), (Qmake 2305843009213693949 1152921504606846976). split; first by apply: list_holds => //; repeat constructor.
  split; first by vm_compute. split; first by []. split; first by apply: exact_det; vm_compute. by split; vm_compute.
Qed.
(** the determinant of a singular matrix of small integers is not 0 *)
Theorem C92_nonzero_refuted : exists m g d, mat_of holds m 3%N 3%N g /\ \det (mx 3 3 (fractions g)) = 0 /\ MatModel.determinant D m = Ok d /\
  CommonSpec.double d /\ finite d /\ ~ is_double 0 d.
Proof.
  pose l := [:: int 3; int 1; int 2; int 2; int 5; int 3; int 5; int 6; int 5].
  exists (mat 3%N l), (rows_of 3%N l), (S754_finite true 7318349394477056 (-101)). split; first by apply: list_holds => //; repeat constructor.
  split; first by rewrite (@exact_det _ _ (inject_Z 0)) ?ratQ_int; vm_compute.
  split; first by vm_compute. split=> //. split=> //. by case=> _ [_]; vm_compute.
Qed.
Print Assumptions C92_inverse_refuted.
Print Assumptions C92_singular_refuted.
Print Assumptions C92_throws_refuted.
Print Assumptions C92_determinant_refuted.
Print Assumptions C92_nonzero_refuted.

(** ** C53: lower triangular matrices of Int *)
Theorem C53_lower_partial : forall m n (g : nat -> nat -> Z), lower (fun z => z = Z0) n g -> mat_of R_int m n n g ->
  ret may_abort (MatModel.determinant Int_ops m) (fun d => R_int d (\det (mx n n g))).
Proof.
  move=> m n g Hl Hm. have E := det_upper_Z Hl. have -> : \det (mx n n g) = zproduct n (fun i => g i i).
  { rewrite E -det_tr. congr (\det _). by apply/matrixP => i j; rewrite !mxE. }
  exact: Int_lower.
Qed.
Example C53_lower_ex : MatModel.determinant Int_ops (PropsMat.MI 3%N 3%N [:: 3; 0; 0; 7; 2; 0; 5; -8; -11]%Z) = Ok (PropsMat.I (-66)).
Proof. by vm_compute. Qed.
Print Assumptions C53_lower_partial.
