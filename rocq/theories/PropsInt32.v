(** Property theorems about Vec<int> and Mat<int>: C70, C71. *)
From Verif Require Import Base IntModel IntBasics ElemModel ElemSpec ElemProofs VecModel VecProofs MatModel MatSpec MatProofs Int32Spec Int32Proofs.
From Verif Require PropsMat.
Local Open Scope Z_scope.

(** a list of ints as a vector, for the examples *)
Lemma seq_of_32 x : Forall fits x -> seq_of R32 x (length x) (fun i => nth i x 0).
Proof.
  intros H. split; auto. intros i Hi. exists (nth i x 0). split; [apply nth_error_nth'; auto|]. split; auto.
  rewrite Forall_forall in H. apply H, nth_In, Hi.
Qed.

(** ** C70 *)
Theorem C70_add : forall x y n v w, seq_of R32 x n v -> seq_of R32 y n w ->
  exact_if (forall i, (i < n)%nat -> fits (v i + w i)) (V_add int32_ops x y) (fun r => seq_of R32 r n (fun i => v i + w i)) /\
  leaves_if (forall i, (i < n)%nat -> fits (v i + w i)) (V_add_assign int32_ops x (Some y)) (fun r => seq_of R32 r n (fun i => v i + w i)) /\
  leaves_if (forall i, (i < n)%nat -> fits (v i + v i)) (V_add_assign int32_ops x None) (fun r => seq_of R32 r n (fun i => v i + v i)).
Proof.
  intros x y n v w Hx Hy. splits; [apply (vec_binary_32 Z.add)|apply (vec_assign_32 Z.add)|apply (vec_assign_32 Z.add)]; auto.
Qed.
Theorem C70_sub : forall x y n v w, seq_of R32 x n v -> seq_of R32 y n w ->
  exact_if (forall i, (i < n)%nat -> fits (v i - w i)) (V_sub int32_ops x y) (fun r => seq_of R32 r n (fun i => v i - w i)) /\
  leaves_if (forall i, (i < n)%nat -> fits (v i - w i)) (V_sub_assign int32_ops x (Some y)) (fun r => seq_of R32 r n (fun i => v i - w i)) /\
  exists r, V_sub_assign int32_ops x None = (r, Ok tt) /\ seq_of R32 r n (fun _ => 0).
Proof.
  intros x y n v w Hx Hy. splits; [apply (vec_binary_32 Z.sub)|apply (vec_assign_32 Z.sub)|]; auto.
  destruct (vec_assign_32 Z.sub (subA int32_ops) ltac:(reflexivity) x None n v v Hx (fun _ _ => eq_refl)) as [H _].
  destruct H as (r & E & Hr); [intros i _; rewrite Z.sub_diag; unfold fits, INT32_MIN, INT32_MAX; lia|].
  exists r. split; auto. eapply seqP_mono; [exact Hr|]. cbn. intros i e _. rewrite Z.sub_diag. auto.
Qed.
Theorem C70_scale : forall x a n v, seq_of R32 x n v ->
  exact_if (forall i, (i < n)%nat -> fits (v i * a)) (V_scale int32_ops a x) (fun r => seq_of R32 r n (fun i => v i * a)) /\
  exact_if (forall i, (i < n)%nat -> fits (v i * a)) (V_mul int32_ops x a) (fun r => seq_of R32 r n (fun i => v i * a)) /\
  leaves_if (forall i, (i < n)%nat -> fits (v i * a)) (V_mul_assign int32_ops x (Val a)) (fun r => seq_of R32 r n (fun i => v i * a)).
Proof.
  intros x a n v Hx. assert (G := scale_32 Z.mul (mulA int32_ops) ltac:(reflexivity) x a n v Hx).
  splits; [apply final_leaves, G|apply final_leaves, G|exact G].
Qed.
(** division is undefined when a is zero and there is an element, and for
    INT_MIN / -1 *)
Theorem C70_divide : forall x a n v, seq_of R32 x n v ->
  exact_if (forall i, (i < n)%nat -> a <> 0 /\ ~ (v i = INT32_MIN /\ a = -1)) (V_div int32_ops x a) (fun r => seq_of R32 r n (fun i => Z.quot (v i) a)) /\
  leaves_if (forall i, (i < n)%nat -> a <> 0 /\ ~ (v i = INT32_MIN /\ a = -1)) (V_div_assign int32_ops x (Val a)) (fun r => seq_of R32 r n (fun i => Z.quot (v i) a)).
Proof.
  intros x a n v Hx. destruct (divide_32 x a n v Hx) as [H1 H2]. set (F := forall i, _). set (G := forall i, _ -> a <> 0 /\ fits _) in *.
  assert (FG : F <-> G).
  { assert (K : forall i, (i < n)%nat -> (a <> 0 /\ ~ (v i = INT32_MIN /\ a = -1)) <-> (a <> 0 /\ fits (Z.quot (v i) a))).
    { intros i Hi. pose proof (seq_fits _ _ _ Hx i Hi) as [Lo Hi']. unfold fits, INT32_MIN, INT32_MAX in *. split; intros [N H]; split; auto.
      - pose proof (Z.quot_rem' (v i) a) as Q. pose proof (Z.rem_bound_abs (v i) a N) as B.
        destruct (Z.eq_dec a (-1)) as [->|N1].
        + assert (Z.quot (v i) (-1) = - v i); [|lia]. rewrite <- (Z.opp_involutive (v i)) at 1. change (-1) with (- (1)).
          rewrite Z.quot_opp_opp by lia. apply Z.quot_1_r.
        + destruct (Z.eq_dec a 1) as [->|N2]; [rewrite Z.quot_1_r; lia|].
          pose proof (Z.quot_abs (v i) a N) as QA. assert (2 <= Z.abs a) by lia.
          assert (Z.abs (v i) ÷ Z.abs a <= Z.abs (v i) / 2).
          { rewrite Z.quot_div_nonneg by lia. apply Z.div_le_compat_l; lia. }
          assert (Z.abs (v i) / 2 <= 1073741824) by (apply Z.div_le_upper_bound; lia). lia.
      - intros [E1 ->]. rewrite E1 in H. change (-2147483648 ÷ -1) with 2147483648 in H. lia. }
    split; intros H i Hi; apply K; auto. }
  assert (L : leaves_if F (V_div_assign int32_ops x (Val a)) (fun r => seq_of R32 r n (fun i => Z.quot (v i) a))) by (split; [intros HF; apply H1|intros HF; apply H2]; tauto).
  split; [apply final_leaves, L|exact L].
Qed.
Theorem C70_dot : forall x y n v w, seq_of R32 x n v -> seq_of R32 y n w ->
  exact_if ((forall i, (i < n)%nat -> fits (v i * w i)) /\ sums_fit n (fun i => v i * w i)) (dot int32_ops x y)
    (fun r => r = total n (fun i => v i * w i)) /\
  (total n (fun i => Z.abs (v i * w i)) <= INT32_MAX -> dot int32_ops x y = Ok (total n (fun i => v i * w i))).
Proof.
  intros x y n v w Hx Hy. destruct (dot_32 x y n v w Hx Hy) as [H1 H2]. split.
  - split; auto. intros G. destruct (H1 G) as (r & E & -> & _). eauto.
  - intros B. destruct (H1 (bounded_fit n _ B)) as (r & E & -> & _). exact E.
Qed.
Theorem C70_cross : forall x y v w, seq_of R32 x 3 v -> seq_of R32 y 3 w ->
  exact_if (cross_fits v w) (cross int32_ops x y) (fun r => seq_of R32 r 3 (cross_at Z.sub Z.mul v w)).
Proof. exact cross_32. Qed.
(** the order of the elements matters: the same products in another order overflow *)
Example C70_ex :
  dot int32_ops [46340; 1; 46340] [46340; 1; -46340] = Ok 1 /\
  dot int32_ops [46340; 46340; 46340] [46340; -46340; 46340] = Ok 2147395600 /\
  dot int32_ops [46340; 46340; 46340] [46340; 46340; -46340] = UB /\
  V_add int32_ops [2147483647; 5] [-1; 7] = Ok [2147483646; 12] /\ V_add int32_ops [5; 2147483647] [7; 1] = UB /\
  V_div int32_ops [-2147483648] (-1) = UB /\ V_div int32_ops [-2147483648] 2 = Ok [-1073741824] /\
  V_div int32_ops [1; 2] 0 = UB /\ V_div int32_ops [] 0 = Ok [] /\
  cross int32_ops [65536; 1; 2] [1; 32768; 3] = UB /\ cross int32_ops [65536; 1; 2] [1; 3; 32767] = Ok [32761; -2147418110; 196607].
Proof. vm_compute. auto 20. Qed.
Example C70_seq_ex : seq_of R32 [46340; 1; 46340] 3 (fun i => nth i [46340; 1; 46340] 0).
Proof. apply (seq_of_32 [46340; 1; 46340]). repeat constructor; unfold fits, INT32_MIN, INT32_MAX; lia. Qed.
Print Assumptions C70_add.
Print Assumptions C70_sub.
Print Assumptions C70_scale.
Print Assumptions C70_divide.
Print Assumptions C70_dot.
Print Assumptions C70_cross.

(** ** C71 *)
Theorem C71_add : forall x y r c g h, mat_of R32 x r c g -> mat_of R32 y r c h ->
  exact_if (forall i j, (i < r)%nat -> (j < c)%nat -> fits (g i j + h i j)) (M_add int32_ops x y) (fun d => mat_of R32 d r c (fun i j => g i j + h i j)) /\
  leaves_if (forall i j, (i < r)%nat -> (j < c)%nat -> fits (g i j + h i j)) (M_add_assign int32_ops x (Some y)) (fun d => mat_of R32 d r c (fun i j => g i j + h i j)) /\
  leaves_if (forall i j, (i < r)%nat -> (j < c)%nat -> fits (g i j + g i j)) (M_add_assign int32_ops x None) (fun d => mat_of R32 d r c (fun i j => g i j + g i j)).
Proof.
  intros x y r c g h Hx Hy. splits; [apply mat_binary_32|apply (mat_assign_32 Z.add)|apply (mat_assign_32 Z.add)]; auto.
Qed.
Theorem C71_sub : forall x y r c g h, mat_of R32 x r c g -> mat_of R32 y r c h ->
  exact_if (forall i j, (i < r)%nat -> (j < c)%nat -> fits (g i j - h i j)) (M_sub int32_ops x y) (fun d => mat_of R32 d r c (fun i j => g i j - h i j)) /\
  leaves_if (forall i j, (i < r)%nat -> (j < c)%nat -> fits (g i j - h i j)) (M_sub_assign int32_ops x (Some y)) (fun d => mat_of R32 d r c (fun i j => g i j - h i j)).
Proof.
  intros x y r c g h Hx Hy. split; [apply mat_binary_32|apply (mat_assign_32 Z.sub)]; auto.
Qed.
Theorem C71_neg : forall x r c g, mat_of R32 x r c g ->
  exact_if (forall i j, (i < r)%nat -> (j < c)%nat -> g i j <> INT32_MIN) (M_neg int32_ops x) (fun d => mat_of R32 d r c (fun i j => - g i j)).
Proof.
  intros x r c g Hx. destruct (M_neg_32 x r c g Hx) as [H1 H2]. split; intros H; [apply H1|apply H2].
  - intros i j Hi Hj. pose proof (mat_fits _ _ _ _ Hx i j Hi Hj). specialize (H i j Hi Hj). unfold fits, INT32_MIN, INT32_MAX in *. lia.
  - intros G. apply H. intros i j Hi Hj. specialize (G i j Hi Hj). unfold fits, INT32_MIN, INT32_MAX in *. lia.
Qed.
Theorem C71_scale : forall x s r c g, mat_of R32 x r c g ->
  exact_if (forall i j, (i < r)%nat -> (j < c)%nat -> fits (s * g i j)) (M_scale int32_ops s x) (fun d => mat_of R32 d r c (fun i j => s * g i j)) /\
  leaves_if (forall i j, (i < r)%nat -> (j < c)%nat -> fits (g i j * s)) (M_mul_assign int32_ops x (MVal s)) (fun d => mat_of R32 d r c (fun i j => g i j * s)).
Proof. intros x s r c g Hx. split; [apply M_scale_32|apply (mat_scale_32 Z.mul)]; auto. Qed.
Theorem C71_divide : forall x s r c g, mat_of R32 x r c g ->
  exact_if (forall i j, (i < r)%nat -> (j < c)%nat -> s <> 0 /\ fits (Z.quot (g i j) s)) (M_div int32_ops x s) (fun d => mat_of R32 d r c (fun i j => Z.quot (g i j) s)) /\
  leaves_if (forall i j, (i < r)%nat -> (j < c)%nat -> s <> 0 /\ fits (Z.quot (g i j) s)) (M_div_assign int32_ops x (MVal s)) (fun d => mat_of R32 d r c (fun i j => Z.quot (g i j) s)).
Proof. intros x s r c g Hx. split; [apply M_div_32|apply mat_div_32]; auto. Qed.
Theorem C71_product : forall x y n m p g h, mat_of R32 x n m g -> mat_of R32 y m p h ->
  exact_if (forall i j, (i < n)%nat -> (j < p)%nat -> (forall k, (k < m)%nat -> fits (g i k * h k j)) /\ sums_fit m (fun k => g i k * h k j))
    (M_product int32_ops x y) (fun d => mat_of R32 d n p (fun i j => total m (fun k => g i k * h k j))).
Proof. exact M_product_32. Qed.
(** entries up to a and b: no overflow when m * a * b fits *)
Theorem C71_product_small : forall x y n m p g h a b, mat_of R32 x n m g -> mat_of R32 y m p h -> 0 <= a -> 0 <= b ->
  (forall i k, (i < n)%nat -> (k < m)%nat -> Z.abs (g i k) <= a) -> (forall k j, (k < m)%nat -> (j < p)%nat -> Z.abs (h k j) <= b) ->
  Z.of_nat m * (a * b) <= INT32_MAX ->
  exists d, M_product int32_ops x y = Ok d /\ mat_of R32 d n p (fun i j => total m (fun k => g i k * h k j)).
Proof.
  intros x y n m p g h a b Hx Hy Ha Hb Hg Hh B. apply (M_product_32 x y n m p g h Hx Hy). intros i j Hi Hj. apply bounded_fit.
  pose proof (total_bound m (fun k => Z.abs (g i k * h k j)) (fun _ => a * b)) as T. rewrite total_const in T.
  assert (forall k, (k < m)%nat -> Z.abs (Z.abs (g i k * h k j)) <= a * b); [|specialize (T H); lia].
  intros k Hk. rewrite Z.abs_involutive, Z.abs_mul. apply Z.mul_le_mono_nonneg; auto; lia.
Qed.
Theorem C71_trace : forall x n g, mat_of R32 x n n g ->
  exact_if (sums_fit n (fun i => g i i)) (trace int32_ops x) (fun r => R32 r (total n (fun i => g i i))).
Proof. exact trace_32. Qed.
(** determinant() of sizes 1 and 2 *)
Theorem C71_determinant_small : forall x g,
  (mat_of R32 x 1 1 g -> determinant int32_ops x = Ok (g 0%nat 0%nat)) /\
  (mat_of R32 x 2 2 g -> exact_if (fits (g 0%nat 0%nat * g 1%nat 1%nat) /\ fits (g 0%nat 1%nat * g 1%nat 0%nat) /\ fits (g 0%nat 0%nat * g 1%nat 1%nat - g 0%nat 1%nat * g 1%nat 0%nat))
     (determinant int32_ops x) (fun d => d = g 0%nat 0%nat * g 1%nat 1%nat - g 0%nat 1%nat * g 1%nat 0%nat)).
Proof.
  intros x g. split; intros Hm; unfold determinant; destruct (mat_of_dims _ _ _ _ _ Hm) as (Dr & Dc & _); rewrite Dr, Dc; cbn [Nat.eqb negb].
  - destruct Hm as (_ & _ & _ & H). destruct (H 0 0)%nat as (e & E & [-> _]); auto. unfold read. cbn [Nat.mul Nat.add] in E. rewrite E. reflexivity.
  - destruct Hm as (_ & _ & _ & H). unfold det2, read.
    destruct (H 0 0)%nat as (a & Ea & [-> _]); auto. destruct (H 0 1)%nat as (b & Eb & [-> _]); auto.
    destruct (H 1 0)%nat as (c & Ec & [-> _]); auto. destruct (H 1 1)%nat as (d & Ed & [-> _]); auto. cbn [Nat.mul Nat.add] in *. rewrite Ea, Ed, Eb, Ec.
    cbn [bind mul sub int32_ops]. eapply exact_if_ret.
    + eapply ret_bind; [apply (i32_pt _ (g 0%nat 0%nat * g 1%nat 1%nat)); intros G; apply G|]. intros p Hp.
      eapply ret_bind; [apply (i32_pt _ (g 0%nat 1%nat * g 1%nat 0%nat)); intros G; apply G|]. intros q Hq.
      destruct Hp as [-> Fp], Hq as [-> Fq]. eapply ret_mono; [apply i32_pt; intros G; apply G|].
      intros r Hr. exact (conj Fp (conj Fq Hr)).
    + cbn. intros r (Fp & Fq & -> & Fr). auto.
Qed.
Example C71_ex :
  M_product int32_ops (PropsMat.MZ 2 2 [40000; 1; 0; 2]) (PropsMat.MZ 2 1 [50000; 3]) = Ok (PropsMat.MZ 2 1 [2000000003; 6]) /\
  M_product int32_ops (PropsMat.MZ 1 3 [40000; 40000; -40000]) (PropsMat.MZ 3 1 [50000; 50000; 50000]) = UB /\
  M_product int32_ops (PropsMat.MZ 1 3 [40000; -40000; 40000]) (PropsMat.MZ 3 1 [50000; 50000; 50000]) = Ok (PropsMat.MZ 1 1 [2000000000]) /\
  M_neg int32_ops (PropsMat.MZ 1 2 [3; -2147483648]) = UB /\
  trace int32_ops (PropsMat.MZ 2 2 [2147483647; 0; 0; 1]) = UB /\
  determinant int32_ops (PropsMat.MZ 2 2 [46341; 0; 0; 46341]) = UB /\ determinant int32_ops (PropsMat.MZ 2 2 [46340; 5; 7; 46340]) = Ok 2147395565.
Proof. vm_compute. auto 10. Qed.
Print Assumptions C71_add.
Print Assumptions C71_sub.
Print Assumptions C71_neg.
Print Assumptions C71_scale.
Print Assumptions C71_divide.
Print Assumptions C71_product.
Print Assumptions C71_product_small.
Print Assumptions C71_trace.
Print Assumptions C71_determinant_small.
