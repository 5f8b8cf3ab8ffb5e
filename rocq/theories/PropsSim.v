(** Property theorems: Vec<double> and Mat<double> when no result is rounded, C80 - C82. *)
From Coq Require Import QArith SpecFloat.
From Verif Require Import Base IntModel IntSpec IntBasics FracModel FracSpec CommonModel CommonSpec ElemModel ElemSpec ElemProofs VecModel VecProofs MatModel MatSpec MatProofs
  Int32Spec Int32Proofs DoubleModel SimSpec SimProofs SimInst.
Local Open Scope nat_scope.

(** ** C80: where exact arithmetic meets only doubles, Vec<double> computes exactly *)
Section Exact.
Variable ok : Q -> bool.
Hypothesis Hok : representable is_double ok.
Local Notation W := (watched ok).
Local Notation D := double_ops.
Local Notation V := (vec_sim is_double).
Local Notation MM := (mat_sim is_double).
Let HR := double_ring ok Hok.
Let HD := double_field ok Hok.
Let HP := double_prod ok Hok.

Theorem C80_sum : forall x y x' y', V x x' -> V y y' ->
  follows V (V_add W x y) (V_add D x' y') /\ follows V (V_sub W x y) (V_sub D x' y') /\
  sfollows V (V_add_assign W x (Some y)) (V_add_assign D x' (Some y')) /\ sfollows V (V_sub_assign W x (Some y)) (V_sub_assign D x' (Some y')) /\
  sfollows V (V_add_assign W x None) (V_add_assign D x' None) /\ sfollows V (V_sub_assign W x None) (V_sub_assign D x' None).
Proof.
  intros x y x' y' Hx Hy. splits; first [apply sim_follows, vec_binary_sim|apply ssim_follows, vec_assign_sim]; auto; try exact Logic.I;
    first [apply (sim_addA _ _ _ _ HR)|apply (sim_subA _ _ _ _ HR)].
Qed.
Theorem C80_scale : forall x x' a a' k, V x x' -> is_double a a' ->
  follows V (V_scale W a x) (V_scale D a' x') /\ follows V (V_div W x a) (V_div D x' a') /\
  sfollows V (V_mul_assign W x (Val a)) (V_mul_assign D x' (Val a')) /\ sfollows V (V_div_assign W x (Val a)) (V_div_assign D x' (Val a')) /\
  sfollows V (V_mul_assign W x (Elem k)) (V_mul_assign D x' (Elem k)) /\ sfollows V (V_div_assign W x (Elem k)) (V_div_assign D x' (Elem k)).
Proof.
  intros x x' a a' k Hx Ha. splits; first [apply sim_follows, sim_final, scale_assign_sim|apply ssim_follows, scale_assign_sim]; auto; try exact Ha; try reflexivity;
    first [intros; apply double_mulA; auto|apply (sim_divA _ _ _ _ HD)].
Qed.
Theorem C80_products : forall x y x' y', V x x' -> V y y' ->
  follows is_double (dot W x y) (dot D x' y') /\ follows V (cross W x y) (cross D x' y') /\ follows eq (V_eq W x y) (V_eq D x' y').
Proof.
  intros x y x' y' Hx Hy. splits; apply sim_follows; [apply (dot_sim _ _ _ _ HR)|apply (cross_sim _ _ _ _ HR)|apply (V_eq_sim _ _ _ _ HR)]; auto.
Qed.

(** ** C81: the same for Mat<double> *)
Theorem C81_sum : forall x y x' y', MM x x' -> MM y y' ->
  follows MM (M_add W x y) (M_add D x' y') /\ follows MM (M_sub W x y) (M_sub D x' y') /\ follows MM (M_neg W x) (M_neg D x') /\
  sfollows MM (M_add_assign W x (Some y)) (M_add_assign D x' (Some y')) /\ sfollows MM (M_sub_assign W x (Some y)) (M_sub_assign D x' (Some y')) /\
  sfollows MM (M_add_assign W x None) (M_add_assign D x' None) /\ sfollows MM (M_sub_assign W x None) (M_sub_assign D x' None).
Proof.
  intros x y x' y' Hx Hy. splits; first [apply sim_follows, (mat_binary_sim _ _ _ _ HR)|apply sim_follows, (M_neg_sim _ _ _ _ HR)|apply ssim_follows, mat_assign_sim]; auto; try exact Logic.I;
    first [apply (sim_add _ _ _ _ HR)|apply (sim_sub _ _ _ _ HR)|apply (sim_addA _ _ _ _ HR)|apply (sim_subA _ _ _ _ HR)].
Qed.
Theorem C81_scale : forall x x' a a', MM x x' -> is_double a a' ->
  follows MM (M_scale W a x) (M_scale D a' x') /\ follows MM (M_div W x a) (M_div D x' a') /\
  sfollows MM (M_mul_assign W x (MVal a)) (M_mul_assign D x' (MVal a')) /\ sfollows MM (M_div_assign W x (MVal a)) (M_div_assign D x' (MVal a')).
Proof.
  intros x x' a a' Hx Ha. splits; [apply sim_follows, (M_scale_sim _ _ _ _ HR)|apply sim_follows, (M_div_sim _ _ _ _ HR HD)|apply ssim_follows, mat_scale_assign_sim..]; auto; try exact Ha;
    first [intros; apply double_mulA; auto|apply (sim_divA _ _ _ _ HD)].
Qed.
Theorem C81_products : forall x y x' y', MM x x' -> MM y y' ->
  follows MM (M_product W x y) (M_product D x' y') /\ follows is_double (trace W x) (trace D x') /\ follows MM (transpose W x) (transpose D x') /\
  follows eq (M_eq W x y) (M_eq D x' y') /\ (forall i j, follows MM (first_minor W x i j) (first_minor D x' i j)) /\ (forall i j, follows MM (cofactor W x i j) (cofactor D x' i j)).
Proof.
  intros x y x' y' Hx Hy. splits; [apply sim_follows, (M_product_sim _ _ _ _ HR)|apply sim_follows, (trace_sim _ _ _ _ HR)
   |apply sim_follows, (transpose_sim _ _ _ _ HR)|apply sim_follows, (M_eq_sim _ _ _ _ HR)|intros i j; apply sim_follows, (first_minor_sim _ _ _ _ HR)
   |intros i j; apply sim_follows, (cofactor_sim _ _ _ _ HR)]; auto.
Qed.
Theorem C81_elimination : forall x x', MM x x' ->
  follows is_double (row_cofactor_expansion W x) (row_cofactor_expansion D x') /\ follows is_double (col_cofactor_expansion W x) (col_cofactor_expansion D x') /\
  follows is_double (determinant W x) (determinant D x') /\ follows MM (rref W x) (rref D x') /\ sfollows MM (inplace_rref W x) (inplace_rref D x') /\
  follows MM (inverse W x) (inverse D x').
Proof.
  intros x x' Hx. splits; [apply sim_follows, (row_cofactor_expansion_sim _ _ _ _ HR)|apply sim_follows, (col_cofactor_expansion_sim _ _ _ _ HR)
    |apply sim_follows, (determinant_sim _ _ _ _ HR HD _ HP)|apply sim_follows, (rref_sim _ _ _ _ HR HD)|apply ssim_follows, (inplace_rref_sim _ _ _ _ HR HD)
    |apply sim_follows, (inverse_sim _ _ _ _ HR HD)]; auto.
Qed.
End Exact.
(** the double k / 2^e, and matrices with integer entries *)
Definition dyad (k : Z) (e : Z) : spec_float := SpecFloat.binary_normalize 53 1024 k (- e) false.
Definition MD (r c : nat) (l : list Z) : Mat spec_float := mkMat r c (map (fun k => Some (double_of_int k)) l).
Definition MQ (r c : nat) (l : list Z) : Mat Q := mkMat r c (map (fun k => Some (inject_Z k)) l).
(** 1/4 + 1/2, and a sum that is rounded *)
Example C80_ex :
  V_add (watched dyadic) [1 # 4; inject_Z 3] [1 # 2; 1 # 8] = Ok [3 # 4; 25 # 8] /\
  V_add double_ops [dyad 1 2; dyad 3 0] [dyad 1 1; dyad 1 3] = Ok [dyad 3 2; dyad 25 3] /\
  dot (watched dyadic) [1 # 4; inject_Z 3] [1 # 2; 1 # 8] = Ok (1 # 2) /\ dot double_ops [dyad 1 2; dyad 3 0] [dyad 1 1; dyad 1 3] = Ok (dyad 1 1) /\
  V_div (watched dyadic) [inject_Z 3; 1 # 4] (inject_Z 8) = Ok [3 # 8; 1 # 32] /\ V_div (watched dyadic) [inject_Z 3; 1 # 4] (inject_Z 3) = UB /\
  V_add (watched dyadic) [inject_Z exact_limit] [inject_Z 1] = UB /\ V_add double_ops [dyad exact_limit 0] [dyad 1 0] = Ok [dyad exact_limit 0].
Proof. vm_compute. auto 10. Qed.
Example C81_ex :
  determinant (watched dyadic) (MQ 3 3 [2; 1; 0; 1; 2; 1; 0; 3; 4]%Z) = Ok (inject_Z 6) /\
  determinant double_ops (MD 3 3 [2; 1; 0; 1; 2; 1; 0; 3; 4]%Z) = Ok (dyad 6 0) /\
  determinant (watched dyadic) (MQ 3 3 [3; 1; 0; 1; 2; 1; 0; 3; 4]%Z) = UB /\
  inverse (watched dyadic) (MQ 2 2 [1; 2; 3; 4]%Z) = Ok (mkMat 2 2 [Some (inject_Z (-2)); Some (inject_Z 1); Some (3 # 2); Some (-1 # 2)]%Z) /\
  inverse double_ops (MD 2 2 [1; 2; 3; 4]%Z) = Ok (mkMat 2 2 [Some (dyad (-2) 0); Some (dyad 1 0); Some (dyad 3 1); Some (dyad (-1) 1)]%Z).
Proof. vm_compute. auto 10. Qed.
Print Assumptions C80_sum.
Print Assumptions C80_scale.
Print Assumptions C80_products.
Print Assumptions C81_sum.
Print Assumptions C81_scale.
Print Assumptions C81_products.
Print Assumptions C81_elimination.

(** ** C82: doubles that hold integers *)
Theorem C82_sum : forall x y n v w, seq_of whole x n v -> seq_of whole y n w ->
  ((forall i, i < n -> (Z.abs (v i + w i) <= exact_limit)%Z) -> exists r, V_add double_ops x y = Ok r /\ seq_of whole r n (fun i => v i + w i)%Z) /\
  ((forall i, i < n -> (Z.abs (v i - w i) <= exact_limit)%Z) -> exists r, V_sub double_ops x y = Ok r /\ seq_of whole r n (fun i => v i - w i)%Z).
Proof.
  intros x y n v w Hx Hy. split; intros L; apply ret_False.
  - apply (vec_binary_pt never whole whole (addA double_ops) Z.add x y n v w); auto. intros i e d Hi He Hd. apply (whole_add never e d _ _ He Hd), L, Hi.
  - apply (vec_binary_pt never whole whole (subA double_ops) Z.sub x y n v w); auto. intros i e d Hi He Hd. apply (whole_sub never e d _ _ He Hd), L, Hi.
Qed.
Theorem C82_dot : forall x y n v w, seq_of whole x n v -> seq_of whole y n w -> (total n (fun i => Z.abs (v i * w i)) <= exact_limit)%Z ->
  exists d, dot double_ops x y = Ok d /\ whole d (total n (fun i => v i * w i)%Z).
Proof. exact dot_whole. Qed.
Theorem C82_product : forall x y n m p g h, mat_of whole x n m g -> mat_of whole y m p h ->
  (forall i j, i < n -> j < p -> (total m (fun k => Z.abs (g i k * h k j)) <= exact_limit)%Z) ->
  exists d, M_product double_ops x y = Ok d /\ mat_of whole d n p (fun i j => total m (fun k => g i k * h k j)%Z).
Proof. exact product_whole. Qed.
(** the limit cannot be raised: 2^53 + 1 is not a double *)
Theorem C82_limit : (forall z, (Z.abs z <= exact_limit)%Z -> exists d, whole d z) /\ ~ exists d, whole d (exact_limit + 1).
Proof.
  split.
  - intros z Hz. exists (double_of_int z). apply double_const, Hz.
  - intros (d & Hd). set (ok := fun q => Qeq_bool q (inject_Z (exact_limit + 1))).
    assert (Hok : representable is_double ok).
    { intros q E. exists d. apply Qeq_bool_eq in E. destruct Hd as (H1 & H2 & H3). split; [exact H1|]. split; [exact H2|]. rewrite H3, E. reflexivity. }
    destruct (ret_False _ _ (double_add ok _ _ _ _ Hok (double_const exact_limit ltac:(cbn; lia)) (double_const 1 ltac:(cbn; lia)) (inject_Z (exact_limit + 1)) ltac:(reflexivity)))
      as (r & [= <-] & _ & _ & E). vm_compute in E. discriminate.
Qed.
Local Notation DD l := (map double_of_int l).
Example C82_ex : dot double_ops (DD [94906265; 3]%Z) (DD [94906265; -1]%Z) = Ok (double_of_int 9007199136250222) /\
  M_product double_ops (MD 2 2 [1; 2; 3; 4]%Z) (MD 2 1 [1000000007; -5]%Z) = Ok (MD 2 1 [999999997; 3000000001]%Z) /\
  V_sub double_ops (DD [5; 7]%Z) (DD [5; -7]%Z) = Ok (DD [0; 14]%Z).
Proof. vm_compute. auto. Qed.
Print Assumptions C82_sum.
Print Assumptions C82_dot.
Print Assumptions C82_product.
Print Assumptions C82_limit.
