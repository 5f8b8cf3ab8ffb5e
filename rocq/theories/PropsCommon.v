(** Property theorems about the double helpers of common.hpp / common.cpp: C58, C69. *)
From Coq Require Import QArith Qabs SpecFloat.
From Verif Require Import Base IntBasics FracModel FracSpec FracDouble CommonModel CommonSpec CommonProofs.
Local Open Scope Z_scope.

(** EPSILON is the double nearest to 1/100000. *)
Theorem C58_epsilon : double EPSILON /\ (Qabs (dval EPSILON - (1 # 100000)) <= (1 # 1180591620717411303424))%Q /\
  (above_eps - dval EPSILON == 1 # 1180591620717411303424)%Q /\ (dval EPSILON - below_eps == 1 # 1180591620717411303424)%Q.
Proof. splits; [reflexivity|vm_compute; discriminate|reflexivity|reflexivity]. Qed.
Print Assumptions C58_epsilon.

(** ** C58 *)
Definition d_one : spec_float := S754_finite false 4503599627370496 (-52).
Definition d_two : spec_float := S754_finite false 4503599627370496 (-51).
Definition d_tiny : spec_float := S754_finite false 1 (-1074).
(** 1 and 2 are ordered the wrong way round. *)
Theorem C58_cmp_refuted : double d_one /\ double d_two /\ (dval d_one == 1)%Q /\ (dval d_two == 2)%Q /\
  float_cmp d_one d_two = 1 /\ float_cmp d_two d_one = -1.
Proof. vm_compute. splits; reflexivity. Qed.
(** Exactly: the sign of y - x, once it exceeds EPSILON by half a unit in the last place. *)
Theorem C58_cmp_partial : forall x y, double x -> double y -> finite x -> finite y ->
  (float_cmp x y = 1 /\ (above_eps <= dval y - dval x)%Q) \/
  (float_cmp x y = -1 /\ (above_eps <= dval x - dval y)%Q) \/
  (float_cmp x y = 0 /\ (Qabs (dval x - dval y) < above_eps)%Q).
Proof.
  intros x y Dx Dy Fx Fy. destruct (cmp_exact x y Dx Dy Fx Fy) as [H1 H2].
  assert (R : float_cmp x y = 1 \/ float_cmp x y = -1 \/ float_cmp x y = 0).
  { unfold float_cmp. destruct (SFltb _ _); auto. destruct (SFltb _ _); auto. }
  destruct R as [R|[R|R]]; [left; tauto|right; left; tauto|right; right]. split; auto.
  apply Qabs_case; intros _; apply Qnot_le_lt; intros L.
  - apply H2 in L. rewrite L in R. discriminate.
  - assert (L2 : (above_eps <= dval y - dval x)%Q) by (setoid_replace (dval y - dval x)%Q with (- (dval x - dval y))%Q by ring; exact L). clear L. rename L2 into L. apply H1 in L. rewrite L in R. discriminate.
Qed.
(** Between EPSILON and that threshold the answer is 0. *)
Theorem C58_hairline_refuted : double d_tiny /\ (dval EPSILON < dval EPSILON - dval (SFopp d_tiny))%Q /\ float_cmp (SFopp d_tiny) EPSILON = 0.
Proof. splits; [reflexivity|vm_compute; reflexivity|vm_compute; reflexivity]. Qed.
Theorem C58_antisymmetric : forall x y, double x -> double y -> float_cmp y x = - float_cmp x y.
Proof.
  assert (NF : forall z, isFinite z = false -> ~ finite z) by (intros z E F; apply isFinite_spec in F; congruence).
  intros x y Dx Dy. destruct (isFinite x) eqn:Ix, (isFinite y) eqn:Iy.
  - apply isFinite_spec in Ix, Iy. destruct (cmp_exact x y Dx Dy Ix Iy) as [H1 H2], (cmp_exact y x Dy Dx Iy Ix) as [H3 H4].
    assert (R : forall a b, float_cmp a b = 1 \/ float_cmp a b = -1 \/ float_cmp a b = 0).
    { intros a b. unfold float_cmp. destruct (SFltb _ _); auto. destruct (SFltb _ _); auto. }
    destruct (R x y) as [E|[E|E]]; rewrite E in *.
    + apply H4, H1. reflexivity.
    + apply H3, H2. reflexivity.
    + destruct (R y x) as [E2|[E2|E2]]; rewrite E2 in *; try reflexivity; exfalso.
      * assert (0 = -1) by (apply H2, H3; reflexivity). lia.
      * assert (0 = 1) by (apply H1, H4; reflexivity). lia.
  - apply NF in Iy. clear Ix Dx Dy. destruct x as [s|s| |s m e], y as [s'|s'| |s' m' e']; try (exfalso; apply Iy; exact I); try destruct s; try destruct s'; reflexivity.
  - apply NF in Ix. clear Iy Dx Dy. destruct x as [s|s| |s m e], y as [s'|s'| |s' m' e']; try (exfalso; apply Ix; exact I); try destruct s; try destruct s'; reflexivity.
  - apply NF in Ix. clear Iy Dx Dy. destruct x as [s|s| |s m e], y as [s'|s'| |s' m' e']; try (exfalso; apply Ix; exact I); try destruct s; try destruct s'; reflexivity.
Qed.
(** NaN compares as 0 with everything; an infinity as 0 with itself and as +-1 with every other double. *)
Theorem C58_not_finite : (forall y, float_cmp S754_nan y = 0 /\ float_cmp y S754_nan = 0) /\
  (forall s, float_cmp (S754_infinity s) (S754_infinity s) = 0) /\
  (forall s y, finite y \/ y = S754_infinity (negb s) -> float_cmp (S754_infinity s) y = if s then 1 else -1).
Proof.
  splits.
  - intros y. destruct y; split; reflexivity.
  - intros [|]; reflexivity.
  - intros s y H. destruct s, y as [s'|s'| |s' m e]; cbn in H; try (destruct s'); try reflexivity; destruct H as [H|H]; try contradiction; discriminate.
Qed.
Theorem C58_isFinite : forall x, isFinite x = true <-> finite x.
Proof. exact isFinite_spec. Qed.
Example C58_ex : float_cmp (S754_zero false) EPSILON = 0 /\ float_cmp (S754_zero false) (S754_finite false 5902958103587058 (-69)) = 1 /\
  float_cmp EPSILON (S754_zero false) = 0 /\ float_cmp d_tiny (S754_zero true) = 0 /\ float_cmp (S754_finite false 9007199254740991 971) (S754_finite true 9007199254740991 971) = -1 /\
  isFinite d_tiny = true /\ isFinite S754_nan = false /\ isFinite (S754_infinity true) = false.
Proof. vm_compute. splits; reflexivity. Qed.
Print Assumptions C58_cmp_refuted.
Print Assumptions C58_cmp_partial.
Print Assumptions C58_hairline_refuted.
Print Assumptions C58_antisymmetric.
Print Assumptions C58_not_finite.
Print Assumptions C58_isFinite.

(** ** C69 *)
Theorem C69_float_equals : forall x y, double x -> double y -> finite x -> finite y ->
  (float_equals x y = 1 /\ (Qabs (dval x - dval y) <= below_eps)%Q) \/
  (float_equals x y = 0 /\ (below_eps < Qabs (dval x - dval y))%Q).
Proof.
  intros x y Dx Dy Fx Fy. pose proof (equals_exact x y Dx Dy Fx Fy) as H.
  assert (R : float_equals x y = 1 \/ float_equals x y = 0) by (unfold float_equals; destruct (SFltb _ _); auto).
  destruct R as [R|R]; [left; tauto|right]. split; auto. apply Qnot_le_lt. intros L. apply H in L. rewrite L in R. discriminate.
Qed.
(** so no two doubles EPSILON or more apart are equal *)
Theorem C69_apart : forall x y, double x -> double y -> finite x -> finite y -> (dval EPSILON <= Qabs (dval x - dval y))%Q -> float_equals x y = 0.
Proof.
  intros x y Dx Dy Fx Fy H. destruct (C69_float_equals x y Dx Dy Fx Fy) as [[_ L]|[E _]]; auto. exfalso.
  assert (L2 : (dval EPSILON <= below_eps)%Q) by (eapply Qle_trans; eauto). vm_compute in L2. auto.
Qed.
Theorem C69_symmetric : forall x y, double x -> double y -> finite x -> finite y -> float_equals x y = float_equals y x.
Proof.
  intros x y Dx Dy Fx Fy. destruct (C69_float_equals x y Dx Dy Fx Fy) as [[-> L]|[-> L]], (C69_float_equals y x Dy Dx Fy Fx) as [[-> M]|[-> M]]; auto; exfalso;
  rewrite Qabs_Qminus in L; apply (Qlt_irrefl below_eps); [eapply Qlt_le_trans|eapply Qlt_le_trans]; eauto.
Qed.
Theorem C69_equal_compare : forall x y, double x -> double y -> finite x -> finite y -> float_equals x y = 1 -> float_cmp x y = 0.
Proof.
  intros x y Dx Dy Fx Fy E. destruct (C69_float_equals x y Dx Dy Fx Fy) as [[_ L]|[E2 _]]; [|rewrite E in E2; discriminate].
  destruct (C58_cmp_partial x y Dx Dy Fx Fy) as [[_ C]|[[_ C]|[C _]]]; auto; exfalso.
  - assert (A : (above_eps <= below_eps)%Q). { eapply Qle_trans; [exact C|]. eapply Qle_trans; [|exact L]. rewrite Qabs_Qminus. apply Qle_Qabs. } vm_compute in A. auto.
  - assert (A : (above_eps <= below_eps)%Q). { eapply Qle_trans; [exact C|]. eapply Qle_trans; [|exact L]. apply Qle_Qabs. } vm_compute in A. auto.
Qed.
(** Neither NaN nor an infinity equals anything, not even itself. *)
Theorem C69_not_finite : forall x y, ~ finite x \/ ~ finite y -> float_equals x y = 0.
Proof.
  intros x y H. destruct x as [s|s| |s m e], y as [s'|s'| |s' m' e']; cbn in H; try (destruct H as [H|H]; exfalso; apply H; exact I); try destruct s; try destruct s'; reflexivity.
Qed.
Example C69_ex : float_equals d_one d_one = 1 /\ float_equals d_one d_two = 0 /\ float_equals (S754_zero false) EPSILON = 0 /\
  float_equals (S754_zero true) (S754_finite true 5902958103587056 (-69)) = 1 /\ float_equals (S754_infinity true) (S754_infinity true) = 0 /\
  float_equals (S754_finite false 9007199254740991 971) (S754_finite true 9007199254740991 971) = 0.
Proof. vm_compute. splits; reflexivity. Qed.
Print Assumptions C69_float_equals.
Print Assumptions C69_apart.
Print Assumptions C69_symmetric.
Print Assumptions C69_equal_compare.
Print Assumptions C69_not_finite.
