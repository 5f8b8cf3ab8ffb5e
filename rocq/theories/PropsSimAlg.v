(** Property theorems about determinants, reduced forms and inverses when no result is
    rounded: C82, C83, and when determinant() of Mat<Int> and Mat<int> is exact, C53. *)
From Coq Require Import QArith.
From Verif Require Import Base IntModel IntSpec IntMod FracModel FracSpec CommonModel CommonSpec ElemModel ElemSpec ElemProofs ElemInst VecModel MatModel MatSpec MatProofs
  Int32Spec Int32Proofs DoubleModel SimSpec SimProofs SimInst TriInst.
From Verif Require PropsMat PropsSim.
From mathcomp Require Import all_ssreflect all_algebra zify ssrZ.
From Verif Require Import MatAlg MatCof MatRrefSpec SimAlg SimIntAlg.
Set Implicit Arguments. Unset Strict Implicit. Unset Printing Implicit Defensive.
Import GRing.Theory.
Local Open Scope ring_scope.
Delimit Scope Z_scope with Z.
Local Notation D := double_ops.
(** a double, and the rational number it holds *)
Local Notation holds := (fun d q => is_double q d).
Local Notation fractions g := (fun i j => ratQ (g i j)).
Local Notation integers g := (fun i j => inject_Z (g i j)).

(** ** C82: cofactor expansions of doubles that hold integers *)
Theorem C82_cofactor : forall n m (g : nat -> nat -> Z) b, mat_of whole m n.+1 n.+1 g ->
  (forall i j, (i < n.+1)%coq_nat -> (j < n.+1)%coq_nat -> (Z.abs (g i j) <= b)%Z) -> (det_bound n.+1 b <= exact_limit)%Z ->
  (exists d, row_cofactor_expansion D m = Ok d /\ whole d (\det (mx n.+1 n.+1 g))) /\
  (exists d, col_cofactor_expansion D m = Ok d /\ whole d (\det (mx n.+1 n.+1 g))).
Proof.
  move=> n m g b Hm Hb Hn.
  have B0 : (0 <= b)%Z. { have Hi : (0 < n.+1)%coq_nat by lia. have := Hb 0%N 0%N Hi Hi. have := Z.abs_nonneg (g 0%N 0%N). exact: Z.le_trans. }
  have [H1 [H2 _]] := PropsSim.C81_elimination _ limit_ok _ _ (whole_table _ _ _ _ Hm).
  have T : mat_of (fun q z => q = inject_Z z /\ (Z.abs z <= b)%Z) (table n.+1 n.+1 (integers g)) n.+1 n.+1 g.
  { have [T1 [T2 [T3 T]]] := table_of n.+1 n.+1 (integers g). split=> //. split=> //. split=> // i j Hi Hj. have [x [Ex Hx]] := T i j Hi Hj. exists x. split=> //. split=> //. exact: Hb. }
  have [[z Ez] [w Ew]] := expansion_watched b n.+1 _ _ B0 T Hn.
  have [X1 X2] := watched_expansion (small_integral exact_limit) (table_rat n.+1 n.+1 (integers g)).
  have E1 := X1 _ Ez. have E2 := X2 _ Ew. rewrite ratQ_int det_integers in E1. rewrite ratQ_int det_integers in E2.
  split.
  - rewrite -(ratZ_inj E1). have [d [Ed Hd]] := H1 _ Ez. by exists d.
  - rewrite -(ratZ_inj E2). have [d [Ed Hd]] := H2 _ Ew. by exists d.
Qed.

Section Exact.
Variable ok : Q -> bool.
Hypothesis Hok : representable is_double ok.
Local Notation W := (watched ok).

(** ** C83: wherever elimination in exact arithmetic meets only doubles, Mat<double>
    returns the true determinant, reduced form and inverse *)
Theorem C83_determinant : forall m n (g : nat -> nat -> Q) q, mat_of holds m n n g -> MatModel.determinant W (table n n g) = Ok q ->
  exists d, MatModel.determinant D m = Ok d /\ is_double q d /\ ratQ q = \det (mx n n (fractions g)).
Proof.
  move=> m n g q Hm Eq. have [_ [_ [H _]]] := PropsSim.C81_elimination _ Hok _ _ (table_sim _ _ _ _ _ Hm).
  have [d [Ed Hd]] := H q Eq. exists d. split=> //. split=> //. apply: (watched_determinant _ Eq). exact: table_rat.
Qed.
Theorem C83_rref : forall m n c (g : nat -> nat -> Q) r, mat_of holds m n c g -> rref W (table n c g) = Ok r ->
  exists d h, rref D m = Ok d /\ mat_of holds d n c h /\ is_rref n c (fractions h) /\ row_equivalent n c (fractions g) (fractions h).
Proof.
  move=> m n c g r Hm Er. have [_ [_ [_ [H _]]]] := PropsSim.C81_elimination _ Hok _ _ (table_sim _ _ _ _ _ Hm).
  have [d [Ed Hd]] := H r Er. have [h [Hr [Rh Eh]]] := watched_rref (table_rat n c g) Er. have [k [Hk Ek]] := mat_rat Hr.
  exists d, k. split=> //. split; first exact: (sim_table _ _ _ _ _ _ Hd Hk). exact: rref_ext Ek Rh Eh.
Qed.
Theorem C83_inverse : forall m n (g : nat -> nat -> Q) r, mat_of holds m n n g -> inverse W (table n n g) = Ok r ->
  exists d h, inverse D m = Ok d /\ mat_of holds d n n h /\
    mx n n (fractions h) *m mx n n (fractions g) = 1%:M /\ mx n n (fractions g) *m mx n n (fractions h) = 1%:M.
Proof.
  move=> m n g r Hm Er. have [_ [_ [_ [_ [_ H]]]]] := PropsSim.C81_elimination _ Hok _ _ (table_sim _ _ _ _ _ Hm).
  have [d [Ed Hd]] := H r Er. have [h [Hr Eh]] := watched_inverse (table_rat n n g) Er. have [k [Hk Ek]] := mat_rat Hr.
  exists d, k. split=> //. split; first exact: (sim_table _ _ _ _ _ _ Hd Hk).
  have -> : mx n n (fractions k) = mx n n h by apply: mx_ext => i j Hi Hj; apply: Ek; lia.
  split=> //. exact: mulmx1C.
Qed.
End Exact.
(** upper triangular matrices: only the products along the diagonal matter *)
Theorem C83_triangular : forall m n (g : nat -> nat -> Q), mat_of holds m n n g -> upper (fun q => Qeq q (inject_Z 0)) n g ->
  (forall k, (k <= n)%coq_nat -> exists d, is_double (qproduct k (fun i => g i i)) d) ->
  exists d, MatModel.determinant D m = Ok d /\ is_double (qproduct n (fun i => g i i)) d /\ ratQ (qproduct n (fun i => g i i)) = \det (mx n n (fractions g)).
Proof.
  move=> m n g Hm Hu Hp. have [d [Ed Hd]] := double_triangular _ _ _ Hm Hu Hp. exists d. split=> //. split=> //. exact: det_upper_rat.
Qed.

(** ** C53: determinant() of Mat<Int> and Mat<int> is exact when the elimination in
    rational arithmetic meets only integers *)
Lemma integers_sim (P : Z -> Prop) m n g : mat_of R_int m n n g -> (forall i j, (i < n)%coq_nat -> (j < n)%coq_nat -> P (g i j)) ->
  mat_sim (is_Int P) (table n n (integers g)) m.
Proof.
  move=> [H1 [H2 [H3 H]]] HP. apply: table_sim. split=> //. split=> //. split=> // i j Hi Hj. have [x [Ex [Cx Vx]]] := H i j Hi Hj.
  exists x. split=> //. split=> //. split; [rewrite Vx; exact: HP|by rewrite Vx].
Qed.
Lemma exact_value n (g : nat -> nat -> Z) ok q z : MatModel.determinant (watched ok) (table n n (integers g)) = Ok q -> Qeq (inject_Z z) q -> z = \det (mx n n g).
Proof.
  move=> Eq Hz. have := watched_determinant (table_rat n n (integers g)) Eq. rewrite det_integers => Er. apply: ratZ_inj. rewrite -Er -ratQ_int. exact/ratQ_eq.
Qed.
Theorem C53_exact_partial : forall m n (g : nat -> nat -> Z) q, mat_of R_int m n n g -> MatModel.determinant (watched integral) (table n n (integers g)) = Ok q ->
  (exists d, MatModel.determinant Int_ops m = Ok d /\ R_int d (\det (mx n n g))) \/ MatModel.determinant Int_ops m = Abort.
Proof.
  move=> m n g q Hm Eq. set P := fun _ : Z => True.
  have HR : representable (is_Int P) integral. { move=> r /integral_Z Er. have [x [Cx Vx]] := canonical_exists (Qnum (Qred r)). exists x. split=> //. split=> //. by rewrite Vx; apply: Qeq_sym. }
  have PC k : List.In k [:: 0%Z; 1%Z; (-1)%Z] -> P k by [].
  have S := determinant_sim _ _ _ _ (@Int_ring may_abort P integral PC HR) (@Int_field may_abort P integral HR (or_introl erefl)) _ (@Int_prod may_abort P integral HR (or_introl erefl)) _ _ (@integers_sim P _ _ _ Hm (fun _ _ _ _ => Logic.I)).
  case: (S q Eq) => [[d [Ed [Cd [_ Vd]]]]|[[] [// Ha Ed]]]; last by right. left. exists d. split=> //. split=> //. exact: (exact_value Eq Vd).
Qed.
(** no division aborts while everything is below 10^18 *)
Theorem C53_exact_small_partial : forall m n (g : nat -> nat -> Z) q, mat_of R_int m n n g ->
  (forall i j, (i < n)%coq_nat -> (j < n)%coq_nat -> (Z.abs (g i j) < 10 ^ 18)%Z) ->
  MatModel.determinant (watched (small_integral (10 ^ 18 - 1)%Z)) (table n n (integers g)) = Ok q ->
  exists d, MatModel.determinant Int_ops m = Ok d /\ R_int d (\det (mx n n g)).
Proof.
  move=> m n g q Hm Hb Eq. set P := fun z : Z => (Z.abs z < 10 ^ 18)%Z. set ok := small_integral _ in Eq *.
  have HR : representable (is_Int P) ok.
  { move=> r. rewrite /ok /small_integral => /andP [/integral_Z Er /Z.leb_le L]. have [x [Cx Vx]] := canonical_exists (Qnum (Qred r)). exists x. split=> //. split; last by rewrite Vx; apply: Qeq_sym.
    rewrite /P Vx. lia. }
  have PC k : List.In k [:: 0%Z; 1%Z; (-1)%Z] -> P k by move=> /= [<-|[<-|[<-|//]]].
  have S := determinant_sim _ _ _ _ (@Int_ring never P ok PC HR) (@Int_field never P ok HR (or_intror (fun z H => H))) _ (@Int_prod never P ok HR (or_intror (fun z H => H))) _ _ (@integers_sim P _ _ _ Hm Hb).
  have [d [Ed [Cd [_ Vd]]]] := ret_False _ _ (S q Eq). exists d. split=> //. split=> //. exact: (exact_value Eq Vd).
Qed.
(** int: the results must fit as well *)
Theorem C53_exact_int32_partial : forall m n (g : nat -> nat -> Z) q, mat_of R32 m n n g ->
  MatModel.determinant (watched integral32) (table n n (integers g)) = Ok q -> MatModel.determinant int32_ops m = Ok (\det (mx n n g)).
Proof.
  move=> m n g q Hm Eq.
  have HR : representable is_int32 integral32.
  { move=> r /andP [/andP [/integral_Z Er /Z.leb_le L1] /Z.leb_le L2]. exists (Qnum (Qred r)). split; [by []|exact: Qeq_sym]. }
  have Hs : mat_sim is_int32 (table n n (integers g)) m.
  { have [H1 [H2 [H3 H]]] := Hm. apply: table_sim. split=> //. split=> //. split=> // i j Hi Hj. have [x [Ex [Vx Fx]]] := H i j Hi Hj. exists x. rewrite Vx in Ex *. by []. }
  have S := determinant_sim _ _ _ _ (int32_ring _ HR) (int32_field _ HR) _ (int32_prod _ HR) _ _ Hs.
  have [d [-> [_ Vd]]] := ret_False _ _ (S q Eq). by rewrite (exact_value Eq Vd).
Qed.
(** upper triangular matrices without zeros on the diagonal: always for Int, and
    exactly when the products along the diagonal fit for int *)
Theorem C53_triangular_partial : forall m n (g : nat -> nat -> Z), upper (fun z => z = Z0) n g ->
  (mat_of R_int m n n g -> exists d, MatModel.determinant Int_ops m = Ok d /\ R_int d (\det (mx n n g))).
Proof. move=> m n g Hu Hm. rewrite -(det_upper_Z Hu). exact: ret_False (Int_triangular _ _ _ Hm Hu). Qed.
Theorem C53_triangular_int32_partial : forall m n (g : nat -> nat -> Z), upper (fun z => z = Z0) n g -> mat_of R32 m n n g ->
  exact_if (forall k, (k <= n)%coq_nat -> fits (zproduct k (fun i => g i i))) (MatModel.determinant int32_ops m) (fun d => d = \det (mx n n g)).
Proof.
  move=> m n g Hu Hm. rewrite -(det_upper_Z Hu). have [H1 H2] := int32_triangular _ _ _ Hm Hu. split=> // F. have [d [Ed [Vd _]]] := H1 F. by exists d.
Qed.
Local Notation MD := PropsSim.MD.
Local Notation MQ := PropsSim.MQ.
Local Notation dyad := PropsSim.dyad.
(** entries up to 100000; eliminating would divide by 3 *)
Example C82_cofactor_ex : (det_bound 3 100000 <=? exact_limit)%Z = true /\
  row_cofactor_expansion D (MD 3%N 3%N [:: 3; 1; 2; 2; 5; 3; 6; 2; 100000]%Z) = Ok (dyad 1299948 0) /\
  col_cofactor_expansion D (MD 3%N 3%N [:: 3; 1; 2; 2; 5; 3; 6; 2; 100000]%Z) = Ok (dyad 1299948 0) /\
  MatModel.determinant (watched dyadic) (MQ 3%N 3%N [:: 3; 1; 2; 2; 5; 3; 6; 2; 100000]%Z) = UB.
Proof. by vm_compute. Qed.
Example C83_ex :
  MatModel.determinant (watched dyadic) (MQ 3%N 3%N [:: 2; 1; 0; 1; 5; 6; -2; 8; 10]%Z) = Ok (inject_Z (-18)) /\
  MatModel.determinant D (MD 3%N 3%N [:: 2; 1; 0; 1; 5; 6; -2; 8; 10]%Z) = Ok (dyad (-18) 0) /\
  rref (watched dyadic) (MQ 2%N 3%N [:: 2; 1; 6; 4; 10; 8]%Z) =
    Ok (mkMat 2%N 3%N [:: Some (inject_Z 1); Some (inject_Z 0); Some (Qmake 13 4); Some (inject_Z 0); Some (inject_Z 1); Some (Qmake (-1) 2)]) /\
  rref D (MD 2%N 3%N [:: 2; 1; 6; 4; 10; 8]%Z) =
    Ok (mkMat 2%N 3%N [:: Some (dyad 1 0); Some (dyad 0 0); Some (dyad 13 2); Some (dyad 0 0); Some (dyad 1 0); Some (dyad (-1) 1)]).
Proof. by vm_compute. Qed.
(** eliminating 4 / 2 and -2 / 2, then 9 / 3 meets integers only *)
Example C53_exact_ex :
  MatModel.determinant (watched integral) (MQ 3%N 3%N [:: 2; 1; 0; 4; 5; 6; -2; 8; 10]%Z) = Ok (inject_Z (-48)) /\
  MatModel.determinant (watched integral32) (MQ 3%N 3%N [:: 2; 1; 0; 4; 5; 6; -2; 8; 10]%Z) = Ok (inject_Z (-48)) /\
  MatModel.determinant Int_ops (PropsMat.MI 3%N 3%N [:: 2; 1; 0; 4; 5; 6; -2; 8; 10]%Z) = Ok (PropsMat.I (-48)) /\
  MatModel.determinant int32_ops (PropsMat.MZ 3%N 3%N [:: 2; 1; 0; 4; 5; 6; -2; 8; 10]%Z) = Ok (-48)%Z /\
  MatModel.determinant (watched integral) (MQ 3%N 3%N [:: 2; 1; 0; 1; 2; 1; 0; 1; 2]%Z) = UB.
Proof. by vm_compute. Qed.
Example C53_triangular_ex :
  MatModel.determinant Int_ops (PropsMat.MI 3%N 3%N [:: 3000000; 7; 9; 0; 7000000; 5; 0; 0; -11]%Z) = Ok (PropsMat.I (-231000000000000)) /\
  MatModel.determinant int32_ops (PropsMat.MZ 3%N 3%N [:: 300; 7; 9; 0; 700; 5; 0; 0; -11]%Z) = Ok (-2310000)%Z /\
  MatModel.determinant int32_ops (PropsMat.MZ 3%N 3%N [:: 300000; 7; 9; 0; 700000; 5; 0; 0; -11]%Z) = UB.
Proof. by vm_compute. Qed.
Print Assumptions C82_cofactor.
Print Assumptions C83_determinant.
Print Assumptions C83_rref.
Print Assumptions C83_inverse.
Print Assumptions C83_triangular.
Print Assumptions C53_exact_partial.
Print Assumptions C53_exact_small_partial.
Print Assumptions C53_exact_int32_partial.
Print Assumptions C53_triangular_partial.
Print Assumptions C53_triangular_int32_partial.
