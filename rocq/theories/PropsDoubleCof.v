(** Property theorems about cofactor expansion on Mat<double>: C93. *)
From Coq Require Import QArith Qreals Qabs Reals SpecFloat.
From Verif Require Import Base IntModel FracModel FracSpec CommonModel CommonSpec ElemModel ElemSpec VecModel MatModel MatSpec DoubleModel DoubleSpec DoubleCof.
Local Open Scope Z_scope.
Local Notation D m e := (S754_finite false m e).
Local Notation int := double_of_int.
Local Notation mat r c l := (mkMat r c (map Some l)).

(** ** C93: what the error bound and its conditions mean *)
Local Open Scope R_scope.
(** the sum of absolute values in the bound is at most n! b^n for entries up to b *)
Theorem C93_size : forall n b g, 0 <= b -> at_most n b g -> Rperm n g <= INR (fact n) * b ^ n /\ Rperm_col n g <= INR (fact n) * b ^ n.
Proof. intros n b g Hb Hg. split; [exact (Rperm_size n b Hb g Hg)|exact (Rperm_col_size n b Hb g Hg)]. Qed.
(** entries that are 0 or at least 2^(52 - e) are multiples of 2^-e *)
Theorem C93_large : forall e d, double d -> finite d -> dR d = 0 \/ powerRZ 2 (52 - e) <= Rabs (dR d) -> grid e (dR d).
Proof. exact grid_large. Qed.
Local Open Scope Z_scope.
(** three entries are 1/3 rounded, so multiples of 2^-54: the result is not exact, and no
    further than 14 * 2^-53 from the determinant; products that are too small for a double
    leave nothing *)
Example C93_ex :
  let l := [D 6004799503160661 (-54); int 1; int 2; int 3; D 6004799503160661 (-54); int 1; int 1; int 5; D 6004799503160661 (-54)] in
  let m := mat 3%nat 3%nat l in let g := fun i j => List.nth (i * 3 + j) (List.map dval l) 0%Q in let d := D 7797899354798914 (-48) in
  row_cofactor_expansion double_ops m = Ok d /\ col_cofactor_expansion double_ops m = Ok d /\
  Qeq_bool (dval d) (Qdet 3 g) = false /\ Qle_bool (Qabs (dval d - Qdet 3 g)) (14 # 9007199254740992) = true /\
  row_cofactor_expansion double_ops (mat 2 2 [D 4503599627370496 (-652); int 0; int 0; D 4503599627370496 (-652)])%nat = Ok (S754_zero false).
Proof. vm_compute. auto 10. Qed.
Print Assumptions C93_size.
Print Assumptions C93_large.
