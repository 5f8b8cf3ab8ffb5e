(** Property theorems about vectors of doubles, and about norm and unit_vector: C73 - C79. *)
From Coq Require Import Reals Qreals QArith SpecFloat Lra Lia.
From Flocq Require Import Core BinarySingleNaN.
From Verif Require Import Base IntModel IntBasics FracModel FracSpec CommonModel CommonSpec CommonProofs ElemModel ElemSpec ElemProofs VecModel VecProofs
  Int32Spec Int32Proofs DoubleModel DoubleSpec DoubleProofs DoubleVec DoubleRange.
#[local] Existing Instances Hprec Hmax Vexp.
Local Open Scope Z_scope.

(** doubles for the examples: m * 2^e *)
Local Notation D m e := (S754_finite false m e).

(** ** C73: norm of a Vec<int> *)
(** norm() is the integer part of the square root; the sum of squares has to fit *)
Theorem C73_norm : forall x n v, seq_of R32 x n v ->
  exact_if (total n (fun i => v i * v i) <= INT32_MAX) (norm_int x) (fun r => r = Z.sqrt (total n (fun i => v i * v i))).
Proof. exact norm_int_32. Qed.
(** norm<double>() is the double nearest to the length *)
Theorem C73_norm_double : forall x n v, seq_of R32 x n v ->
  exact_if (total n (fun i => v i * v i) <= INT32_MAX) (norm_int_double x) (fun r => nearest (sqrt (IZR (total n (fun i => v i * v i)))) r).
Proof. exact norm_int_double_32. Qed.
Example C73_ex : norm_int [3; 4; 12] = Ok 13 /\ norm_int [1; 2; 3; 4] = Ok 5 /\ norm_int [46340; 210] = Ok 46340 /\ norm_int [46341] = UB /\
  norm_int_double [3; -4] = Ok (D 5629499534213120 (-50)) /\ norm_int_double [40000; 30000] = UB.
Proof. vm_compute. auto 10. Qed.
Print Assumptions C73_norm.
Print Assumptions C73_norm_double.

(** ** C74: unit_vector() of a Vec<int> *)
Theorem C74_unit : forall x n v, seq_of R32 x n v -> let s := total n (fun i => v i * v i) in
  exact_if (s <= INT32_MAX /\ (s = 0 -> n = 0%nat)) (unit_int x) (fun r => seq_of R32 r n (fun i => Z.quot (v i) (Z.sqrt s))).
Proof. exact unit_int_32. Qed.
Example C74_ex : unit_int [3; 4] = Ok [0; 0] /\ unit_int [0; -7; 0] = Ok [0; -1; 0] /\ unit_int [5; 1] = Ok [1; 0] /\ unit_int [] = Ok [] /\
  unit_int [0; 0] = UB /\ unit_int [46341; 0] = UB.
Proof. vm_compute. auto 10. Qed.
Print Assumptions C74_unit.

(** ** C75: from doubles to ints *)
Theorem C75_convert : forall x, Forall double x ->
  exact_if (Forall (fun d => finite d /\ fits (Qtrunc (dval d))) x) (Vec_of_vec int_of_double x) (fun r => r = map (fun d => Qtrunc (dval d)) x).
Proof.
  intros x Hx. rewrite Forall_forall in Hx. set (F := Forall _ x).
  apply (exact_if_ret F _ (fun r => seqP r (length x) (fun i k => exists d, nth_error x i = Some d /\ k = Qtrunc (dval d) /\ finite d /\ fits (Qtrunc (dval d))))).
  - apply (push_all_ok int_of_double (overflow F) _ x (length x) (length x)); auto. intros i d Hi E.
    destruct (int_of_double_exact d (Hx d (nth_error_In _ _ E))) as [H1 H2].
    destruct (is_finite_dec d) as [Fd|Fd]; [destruct (fits_dec (Qtrunc (dval d))) as [G|G]|].
    + destruct (H1 (conj Fd G)) as (k & -> & -> & _). apply ret_ok. eauto 10.
    + rewrite H2 by tauto. right. exists HUB. split; [split; [reflexivity|]|reflexivity]. intros HF. apply G. unfold F in HF. rewrite Forall_forall in HF. apply (HF d (nth_error_In _ _ E)).
    + rewrite H2 by tauto. right. exists HUB. split; [split; [reflexivity|]|reflexivity]. intros HF. apply Fd. unfold F in HF. rewrite Forall_forall in HF. apply (HF d (nth_error_In _ _ E)).
  - intros r [L H]. split.
    + apply Forall_forall. intros d Hd. apply In_nth_error in Hd as [i Hi]. assert (Li : (i < length x)%nat) by (apply nth_error_Some; congruence).
      destruct (H i Li) as (k & _ & d' & E & _ & G). congruence.
    + apply (nth_ext _ _ 0 0); [rewrite map_length; exact L|]. intros i Hi. rewrite L in Hi. destruct (H i Hi) as (k & Ek & d & Ed & -> & _).
      apply nth_error_nth with (d := 0) in Ek. rewrite Ek. symmetry. apply nth_error_nth. rewrite nth_error_map, Ed. reflexivity.
Qed.
Example C75_ex : Vec_of_vec int_of_double [D 5 (-1); S754_finite true 5 (-1); S754_zero true; D 2147483647 0] = Ok [2; -2; 0; 2147483647] /\
  Vec_of_vec int_of_double [D 1 31] = UB /\ Vec_of_vec int_of_double [S754_finite true 1 31] = Ok [-2147483648] /\ Vec_of_vec int_of_double [D 1 0; S754_nan] = UB.
Proof. vm_compute. auto 10. Qed.
Print Assumptions C75_convert.

(** ** C76: the error of dot on Vec<double> *)
Local Open Scope R_scope.
Theorem C76_dot : forall x y n, Forall double x -> Forall double y -> length x = n -> length y = n ->
  exists d, dot double_ops x y = Ok d /\ double d /\
  (finite d -> Forall finite x /\ Forall finite y /\
    Rabs (dR d - Rsum n (fun i => elem x i * elem y i)) <=
      ((1 + unit_roundoff) ^ S n - 1) * Rsum n (fun i => Rabs (elem x i * elem y i)) + INR n * (1 + unit_roundoff) ^ n * half_least).
Proof.
  intros x y n Hx Hy Lx Ly. subst n. pose proof (seq_bin x Hx) as Sx. pose proof (seq_bin y Hy) as Sy. rewrite Ly in Sy.
  eexists. split; [apply (dot_bin x y _ _ _ Sx Sy)|]. split; [apply double_bin|]. intros F. apply finite_equiv in F. destruct (fdot_error _ _ _ F) as [Fv B].
  split; [apply (finite_elems x Hx); intros i Hi; apply Fv, Hi|]. split; [apply (finite_elems y Hy); intros i Hi; apply Fv; lia|].
  rewrite dR_bin.
  rewrite (Rsum_ext _ (fun i => elem x i * elem y i) (fun i => B2R (bin_of (nth i x S754_nan)) * B2R (bin_of (nth i y S754_nan)))) by (intros i Hi; rewrite !elem_bin by (auto; lia); reflexivity).
  rewrite (Rsum_ext _ (fun i => Rabs (elem x i * elem y i)) (fun i => Rabs (B2R (bin_of (nth i x S754_nan)) * B2R (bin_of (nth i y S754_nan))))) by (intros i Hi; rewrite !elem_bin by (auto; lia); reflexivity).
  exact B.
Qed.
(** 0.1 + 0.1 + 0.1 - 0.3 is not 0 *)
Local Open Scope Z_scope.
Example C76_ex :
  dot double_ops [D 7205759403792794 (-56); D 7205759403792794 (-56); D 7205759403792794 (-56); D 5404319552844595 (-54)] (map double_of_int [1; 1; 1; -1]) = Ok (D 4503599627370496 (-106)) /\
  dot double_ops [D 1 600] [D 1 600] = Ok (S754_infinity false) /\
  dot double_ops [D 1 600; D 1 600] [D 1 600; S754_finite true 1 600] = Ok S754_nan /\
  dot double_ops [D 1 (-600)] [D 1 (-600)] = Ok (S754_zero false).
Proof. vm_compute. auto 10. Qed.
Print Assumptions C76_dot.

(** ** C77: norm of Vec<double> *)
Local Open Scope R_scope.
Theorem C77_norm : forall x n, Forall double x -> length x = n -> exists d, norm_double x = Ok d /\ double d /\
  (In S754_nan x <-> d = S754_nan) /\ (d <> S754_nan -> never_negative d) /\
  (finite d -> Forall finite x /\
    Rabs (dR d * dR d - Rsum n (fun i => elem x i * elem x i)) <=
      ((1 + unit_roundoff) ^ (n + 3) - 1) * Rsum n (fun i => elem x i * elem x i) + INR n * (1 + unit_roundoff) ^ (n + 2) * half_least).
Proof.
  intros x n Hx Ln. subst n. pose proof (seq_bin x Hx) as Sx. eexists. split; [apply (norm_bin x _ _ Sx)|]. set (v := fun i => _) in *. set (n := length x) in *.
  split; [apply double_bin|].
  assert (P : ~ In S754_nan x -> nonneg (Bsqrt mode_NE (fdot n v v))).
  { intros N. apply sqrt_nonneg, fdot_nonneg. intros i Hi. destruct (is_nan (v i)) eqn:E; [|reflexivity]. exfalso. apply N.
    apply (nan_elem x i Hx Hi E). }
  split; [|split].
  - split.
    + intros H. apply (In_nth _ _ S754_nan) in H as (i & Hi & E). rewrite fdot_nan; [reflexivity|]. exists i. split; [exact Hi|]. unfold v. rewrite E. apply bin_of_nan.
    + intros E. destruct (in_dec nan_dec S754_nan x) as [I|I]; [exact I|]. destruct (P I) as [Nn _]. destruct (Bsqrt mode_NE _); discriminate.
  - intros E. destruct (in_dec nan_dec S754_nan x) as [I|I].
    + exfalso. apply E. apply (In_nth _ _ S754_nan) in I as (i & Hi & Ei). rewrite fdot_nan; [reflexivity|]. exists i. split; [exact Hi|]. unfold v. rewrite Ei. apply bin_of_nan.
    + destruct (P I) as [Nn Sn]. destruct (Bsqrt mode_NE _); cbn in *; auto; discriminate.
  - intros F. apply finite_equiv in F. assert (Fd : is_finite (fdot n v v) = true) by (apply finite_sqrt; exact F).
    destruct (fdot_error _ _ _ Fd) as [Fv _]. split; [apply (finite_elems x Hx); intros i Hi; apply Fv, Hi|]. rewrite dR_bin.
    rewrite (Rsum_ext _ (fun i => elem x i * elem x i) (fun i => B2R (v i) * B2R (v i))) by (intros i Hi; rewrite !elem_bin by auto; reflexivity).
    apply (norm_error n v Fd).
Qed.
(** with an element of at least 2^-511, it is no less than any of the elements *)
Theorem C77_longest : forall x d j, Forall double x -> norm_double x = Ok d -> finite d -> (j < length x)%nat -> powerRZ 2 (-511) <= Rabs (elem x j) ->
  forall k, (k < length x)%nat -> Rabs (elem x k) <= dR d.
Proof.
  intros x d j Hx E F Hj Lj k Hk. pose proof (seq_bin x Hx) as Sx. rewrite (norm_bin x _ _ Sx) in E. apply Ok_inj in E. subst d. set (v := fun i => _) in *.
  apply finite_equiv in F. assert (Fd : is_finite (fdot (length x) v v) = true) by (apply finite_sqrt; exact F).
  rewrite dR_bin, elem_bin by auto. rewrite elem_bin in Lj by auto. apply (norm_ge (length x) v j Fd Hj); auto. rewrite <- (bpow_powerRZ radix2) in Lj. exact Lj.
Qed.
Local Open Scope Z_scope.
Example C77_ex : norm_double (map double_of_int [3; 4]) = Ok (double_of_int 5) /\ norm_double [S754_infinity true; D 1 0] = Ok (S754_infinity false) /\
  norm_double [S754_infinity true; S754_nan] = Ok S754_nan /\ norm_double [D 1 (-1); S754_finite true 1 (-1)] = Ok (D 6369051672525773 (-53)) /\ norm_double [] = Ok (S754_zero false).
Proof. vm_compute. auto 10. Qed.
Print Assumptions C77_norm.
Print Assumptions C77_longest.

(** ** C78: a non-zero vector has a positive length, and a length that is a double is found *)
(** Neither holds: the squares are formed first. *)
Theorem C78_positive_refuted : exists x, Forall double x /\ Forall finite x /\ (exists i, (i < length x)%nat /\ elem x i <> 0%R) /\ norm_double x = Ok (S754_zero false).
Proof.
  exists [D 4503599627370496 (-600)]. split; [repeat constructor|]. split; [repeat constructor|]. split; [|reflexivity].
  exists 0%nat. split; [auto|]. unfold elem. cbn [nth]. change (D 4503599627370496 (-600)) with (B2SF (@B754_finite 53 1024 false 4503599627370496 (-600) eq_refl)).
  rewrite dR_bin. cbn [B2R]. apply Rgt_not_eq, F2R_gt_0. reflexivity.
Qed.
Theorem C78_finite_refuted : exists x, Forall double x /\ length x = 1%nat /\ Forall finite x /\ norm_double x = Ok (S754_infinity false).
Proof. exists [D 4503599627370496 600]. splits; [repeat constructor|reflexivity|repeat constructor|reflexivity]. Qed.
(** it is positive when an element is at least 2^-511 *)
Theorem C78_positive_partial : forall x d j, Forall double x -> norm_double x = Ok d -> finite d -> (j < length x)%nat -> (powerRZ 2 (-511) <= Rabs (elem x j))%R -> (0 < dR d)%R.
Proof.
  intros x d j Hx E F Hj Lj. eapply Rlt_le_trans; [|apply (C77_longest x d j Hx E F Hj Lj j Hj)]. eapply Rlt_le_trans; [|exact Lj]. apply powerRZ_lt. lra.
Qed.
(** it is zero exactly when no square is above 2^-1075 *)
Local Open Scope R_scope.
Theorem C78_zero : forall x, Forall double x -> (norm_double x = Ok (S754_zero false) <-> Forall finite x /\ forall i, (i < length x)%nat -> elem x i * elem x i <= half_least).
Proof. exact norm_zero_iff. Qed.
(** it is finite when the sum of the squares, with room for the rounding, is not above the
    largest double, and infinite when it is above *)
Theorem C78_finite_partial : forall x n, Forall double x -> Forall finite x -> length x = n ->
  (1 + unit_roundoff) ^ S n * Rsum n (fun i => elem x i * elem x i) + INR n * (1 + unit_roundoff) ^ n * half_least <= largest ->
  exists d, norm_double x = Ok d /\ finite d.
Proof. exact norm_finite. Qed.
Theorem C78_infinite : forall x n, Forall double x -> Forall finite x -> length x = n ->
  largest + INR n * (1 + unit_roundoff) ^ n * half_least < (2 - (1 + unit_roundoff) ^ S n) * Rsum n (fun i => elem x i * elem x i) ->
  norm_double x = Ok (S754_infinity false).
Proof. exact norm_infinite. Qed.
(** one element of 2^512 or more is enough; for a single element this is exact *)
Theorem C78_huge : forall x i, Forall double x -> ~ In S754_nan x -> (i < length x)%nat -> ~ finite (nth i x S754_nan) \/ powerRZ 2 512 <= Rabs (elem x i) ->
  norm_double x = Ok (S754_infinity false).
Proof. exact norm_huge. Qed.
Theorem C78_one : forall d, double d -> finite d -> (norm_double [d] = Ok (S754_infinity false) <-> powerRZ 2 512 <= Rabs (dR d)).
Proof. exact norm_one. Qed.
Local Open Scope Z_scope.
Example C78_zero_ex : norm_double [D 6369051672525772 (-590); D 6369051672525772 (-590)] = Ok (S754_zero false) /\
  norm_double [D 6369051672525773 (-590)] = Ok (D 4503599627370496 (-589)).
Proof. vm_compute. auto. Qed.
Example C78_huge_ex : norm_double [D 9007199254740991 459] = Ok (D 9007199254740991 459) /\ norm_double [D 1 0; D 4503599627370496 460] = Ok (S754_infinity false) /\
  norm_double [D 9007199254740991 458; D 9007199254740991 458; D 9007199254740991 458] = Ok (D 7800463371553961 459) /\
  norm_double [D 9007199254740991 459; D 9007199254740991 459] = Ok (S754_infinity false).
Proof. vm_compute. auto. Qed.
Example C78_ex : norm_double [D 4503599627370496 (-563)] = Ok (D 4503599627370496 (-563)) /\ norm_double [D 4503599627370496 458] = Ok (D 4503599627370496 458).
Proof. vm_compute. auto. Qed.
Print Assumptions C78_positive_refuted.
Print Assumptions C78_finite_refuted.
Print Assumptions C78_positive_partial.
Print Assumptions C78_zero.
Print Assumptions C78_finite_partial.
Print Assumptions C78_infinite.
Print Assumptions C78_huge.
Print Assumptions C78_one.

(** ** C79: unit_vector of Vec<double> *)
Local Open Scope R_scope.
(** each element is the double nearest to the quotient, and between -1 and 1; the
    length is 1 up to rounding *)
Theorem C79_unit : forall x d j n, Forall double x -> norm_double x = Ok d -> finite d -> length x = n -> (j < n)%nat -> powerRZ 2 (-511) <= Rabs (elem x j) ->
  exists y, unit_double x = Ok y /\ length y = n /\ Forall double y /\ Forall finite y /\
  (forall i, (i < n)%nat -> nearest (elem x i / dR d) (nth i y S754_nan) /\ Rabs (elem y i) <= 1) /\
  (INR n <= 1048576 -> Rabs (Rsum n (fun i => elem y i * elem y i) - 1) <= (2 * INR n + 6) * unit_roundoff).
Proof.
  intros x d j n Hx E F Ln Hj Lj. subst n. pose proof (seq_bin x Hx) as Sx. pose proof (unit_bin x _ _ Sx) as U. cbv zeta in U. destruct U as (y & Ey & Hy).
  rewrite (norm_bin x _ _ Sx) in E. apply Ok_inj in E. subst d. set (v := fun i => _) in *. set (n := length x) in *.
  apply finite_equiv in F. assert (Fd : is_finite (fdot n v v) = true) by (apply finite_sqrt; exact F).
  destruct (fdot_error _ _ _ Fd) as [Fv _]. rewrite elem_bin in Lj by auto. rewrite <- (bpow_powerRZ radix2) in Lj.
  pose proof (norm_ge n v j Fd Hj Lj) as G. set (s := Bsqrt mode_NE (fdot n v v)) in *.
  assert (Ps : 0 < B2R s). { eapply Rlt_le_trans; [|apply (G j Hj)]. eapply Rlt_le_trans; [apply (bpow_gt_0 radix2 (-511))|exact Lj]. }
  destruct Hy as [Ly Hy].
  assert (Ny : forall i, (i < n)%nat -> nth i y S754_nan = B2SF (Bdiv mode_NE (v i) s)).
  { intros i Hi. destruct (Hy i Hi) as (e & E & He). transitivity e; [apply nth_error_nth, E|exact He]. }
  assert (Q : forall i, (i < n)%nat -> elem y i = B2R (Bdiv mode_NE (v i) s)).
  { intros i Hi. unfold elem. rewrite Ny by exact Hi. apply dR_bin. }
  exists y. split; [exact Ey|]. split; [exact Ly|]. split; [|split; [|split]].
  - apply Forall_forall. intros e He. apply (In_nth _ _ S754_nan) in He as (i & Hi & <-). rewrite Ly in Hi. rewrite Ny by exact Hi. apply double_bin.
  - apply Forall_forall. intros e He. apply (In_nth _ _ S754_nan) in He as (i & Hi & <-). rewrite Ly in Hi. rewrite Ny by exact Hi. apply finite_equiv.
    apply div_le_1; auto. apply Fv, Hi.
  - intros i Hi. destruct (div_le_1 (v i) s (proj1 (Fv i Hi)) Ps (G i Hi)) as (F1 & F2 & F3). rewrite Ny, Q by exact Hi. split; [|exact F3].
    rewrite dR_bin, elem_bin by auto. apply nearest_rnd; auto.
  - intros Hn. rewrite (Rsum_ext n (fun i => elem y i * elem y i) (fun i => B2R (Bdiv mode_NE (v i) s) * B2R (Bdiv mode_NE (v i) s))) by (intros i Hi; rewrite Q by exact Hi; reflexivity).
    apply (unit_length n v j Hn Fd Hj Lj).
Qed.
(** the vector of zeros has no unit vector: the result is NaN *)
Local Open Scope Z_scope.
Example C79_ex : unit_double (map double_of_int [3; 4]) = Ok [D 5404319552844595 (-53); D 7205759403792794 (-53)] /\
  unit_double (map double_of_int [0; 0]) = Ok [S754_nan; S754_nan] /\ unit_double [S754_infinity false; D 1 0] = Ok [S754_nan; S754_zero false] /\
  unit_double [D 4503599627370496 (-600)] = Ok [S754_infinity false].
Proof. vm_compute. auto 10. Qed.
Print Assumptions C79_unit.
