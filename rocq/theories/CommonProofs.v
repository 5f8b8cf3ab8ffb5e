(** float_cmp and float_equals, through Flocq's account of binary64 subtraction. *)
From Coq Require Import Reals Qreals QArith Qabs Lra SpecFloat.
From Flocq Require Import Core BinarySingleNaN.
From Verif Require Import Base FracModel FracSpec CommonModel CommonSpec.
Local Open Scope Z_scope.

#[local] Instance Hprec : FLX.Prec_gt_0 53. Proof. reflexivity. Qed.
#[local] Instance Hmax : Prec_lt_emax 53 1024. Proof. reflexivity. Qed.
#[local] Instance Vexp : Valid_exp (SpecFloat.fexp 53 1024). Proof. apply fexp_correct. reflexivity. Qed.
Notation bin := (binary_float 53 1024).
Notation fexp := (SpecFloat.fexp 53 1024).
Notation rnd := (Generic_fmt.round radix2 fexp (round_mode mode_NE)).

(** *** SpecFloat's subtraction and comparison are Flocq's *)
Lemma round_nearest_even_equiv s m l : round_nearest_even m l = choice_mode mode_NE s m l.
Proof. destruct l as [|c]; [reflexivity|]. destruct c; try reflexivity. cbn. unfold Round.cond_incr. destruct (Z.even m); reflexivity. Qed.
Lemma binary_round_aux_equiv sx mx ex lx :
  SpecFloat.binary_round_aux 53 1024 sx mx ex lx = BinarySingleNaN.binary_round_aux 53 1024 mode_NE sx mx ex lx.
Proof.
  unfold SpecFloat.binary_round_aux, BinarySingleNaN.binary_round_aux. set (mrse' := shr_fexp _ _ _ _ _).
  destruct mrse' as [mrs' e']. cbn. rewrite (round_nearest_even_equiv sx). reflexivity.
Qed.
Lemma binary_round_equiv s m e : SpecFloat.binary_round 53 1024 s m e = BinarySingleNaN.binary_round 53 1024 mode_NE s m e.
Proof.
  unfold SpecFloat.binary_round, BinarySingleNaN.binary_round, shl_align_fexp. destruct (shl_align _ _ _) as [mz ez]. apply binary_round_aux_equiv.
Qed.
Lemma binary_normalize_equiv m e z : SpecFloat.binary_normalize 53 1024 m e z = B2SF (BinarySingleNaN.binary_normalize 53 1024 Hprec Hmax mode_NE m e z).
Proof. destruct m; [reflexivity| |]; cbn; rewrite B2SF_SF2B; apply binary_round_equiv. Qed.
Lemma dsub_equiv (x y : bin) : dsub (B2SF x) (B2SF y) = B2SF (Bminus mode_NE x y).
Proof.
  unfold dsub. destruct x as [sx|sx| |sx mx ex Bx], y as [sy|sy| |sy my ey By]; try reflexivity; try (cbn; destruct (Bool.eqb _ _); reflexivity).
  cbn. unfold Zminus. rewrite <- cond_Zopp_negb. apply binary_normalize_equiv.
Qed.
Lemma SFltb_equiv (x y : bin) : SFltb (B2SF x) (B2SF y) = Bltb x y.
Proof. reflexivity. Qed.
Lemma ltb_finite (x y : bin) : is_finite x = true -> is_finite y = true -> (SFltb (B2SF x) (B2SF y) = true <-> (B2R x < B2R y)%R).
Proof.
  intros Fx Fy. rewrite SFltb_equiv, Bltb_correct by auto. destruct (Rlt_bool_spec (B2R x) (B2R y)); split; auto; try lra; discriminate.
Qed.
Lemma Q2R_dval (x : bin) : Q2R (dval (B2SF x)) = B2R x.
Proof.
  destruct x as [s|s| |s m e Hb]; cbn [B2SF dval B2R]; try apply RMicromega.Q2R_0.
  rewrite Q2R_mult. unfold F2R. cbn [Fnum Fexp]. f_equal.
  - unfold Q2R, inject_Z. cbn [Qnum Qden]. destruct s; cbn [cond_Zopp]; rewrite Rinv_1, Rmult_1_r; reflexivity.
  - rewrite RMicromega.Q2RpowerRZ by (left; discriminate). rewrite bpow_powerRZ. f_equal. unfold Q2R. cbn. lra.
Qed.
Lemma finite_equiv (x : bin) : finite (B2SF x) <-> is_finite x = true.
Proof. destruct x; cbn; split; auto; try contradiction; discriminate. Qed.

(** *** The neighbours of EPSILON *)
Definition eps : bin := @B754_finite 53 1024 false 5902958103587057 (-69) eq_refl.
Definition eps_up : bin := @B754_finite 53 1024 false 5902958103587058 (-69) eq_refl.
Definition eps_down : bin := @B754_finite 53 1024 false 5902958103587056 (-69) eq_refl.
Definition half_ulp : bin := @B754_finite 53 1024 false 4503599627370496 (-122) eq_refl.
Lemma half_ulp_val : B2R half_ulp = bpow radix2 (-70).
Proof. unfold half_ulp, B2R, F2R. cbn [Fnum Fexp cond_Zopp]. change (IZR 4503599627370496) with (bpow radix2 52). rewrite <- bpow_plus. reflexivity. Qed.
Lemma bpow69 : bpow radix2 (-69) = (2 * bpow radix2 (-70))%R.
Proof. change (-69) with (1 + -70). rewrite bpow_plus. reflexivity. Qed.
Lemma eps_vals : B2R eps = (11805916207174114 * bpow radix2 (-70))%R /\ B2R eps_up = (11805916207174116 * bpow radix2 (-70))%R /\
  B2R eps_down = (11805916207174112 * bpow radix2 (-70))%R.
Proof. unfold eps, eps_up, eps_down, B2R, F2R. cbn [Fnum Fexp cond_Zopp]. rewrite bpow69. lra. Qed.
Lemma pos70 : (0 < bpow radix2 (-70))%R.
Proof. apply bpow_gt_0. Qed.
(** the two ties *)
Lemma small_finite (r : R) : (Rabs (rnd r) < 1)%R -> Rlt_bool (Rabs (rnd r)) (bpow radix2 1024) = true.
Proof. intros H. apply Rlt_bool_true. eapply Rlt_trans; [exact H|]. change 1%R with (bpow radix2 0). apply bpow_lt. reflexivity. Qed.
Lemma tie_up : rnd (B2R eps + B2R half_ulp) = B2R eps_up.
Proof.
  pose proof (Bminus_correct 53 1024 _ _ mode_NE eps (Bopp half_ulp) eq_refl eq_refl) as H.
  rewrite B2R_Bopp in H. replace (B2R eps - - B2R half_ulp)%R with (B2R eps + B2R half_ulp)%R in H by ring.
  assert (E : Bminus mode_NE eps (Bopp half_ulp) = eps_up). { apply B2SF_inj. rewrite <- dsub_equiv. vm_compute. reflexivity. }
  rewrite E in H. destruct (Rlt_bool _ _); [symmetry; apply H|]. destruct H as [H _]. discriminate H.
Qed.
Lemma tie_down : rnd (B2R eps - B2R half_ulp) = B2R eps_down.
Proof.
  pose proof (Bminus_correct 53 1024 _ _ mode_NE eps half_ulp eq_refl eq_refl) as H.
  assert (E : Bminus mode_NE eps half_ulp = eps_down). { apply B2SF_inj. rewrite <- dsub_equiv. vm_compute. reflexivity. }
  rewrite E in H. destruct (Rlt_bool _ _); [symmetry; apply H|]. destruct H as [H _]. discriminate H.
Qed.
Lemma succ_near (x : bin) : (bpow radix2 (-17) <= B2R x < bpow radix2 (-16))%R -> succ radix2 fexp (B2R x) = (B2R x + bpow radix2 (-69))%R.
Proof.
  intros H. pose proof (bpow_gt_0 radix2 (-17)). rewrite succ_eq_pos by lra. f_equal. rewrite ulp_neq_0 by lra. f_equal. unfold cexp.
  rewrite (mag_unique radix2 (B2R x) (-16)); [reflexivity|]. rewrite Rabs_pos_eq by lra. exact H.
Qed.
Lemma eps_range : (bpow radix2 (-17) <= B2R eps < bpow radix2 (-16) /\ bpow radix2 (-17) <= B2R eps_down < bpow radix2 (-16))%R.
Proof.
  destruct eps_vals as (-> & _ & ->). pose proof pos70.
  assert (bpow radix2 (-17) = bpow radix2 53 * bpow radix2 (-70))%R as -> by (rewrite <- bpow_plus; reflexivity).
  assert (bpow radix2 (-16) = bpow radix2 54 * bpow radix2 (-70))%R as -> by (rewrite <- bpow_plus; reflexivity).
  change (bpow radix2 53) with (IZR 9007199254740992). change (bpow radix2 54) with (IZR 18014398509481984). split; split; nra.
Qed.
Lemma succ_eps : succ radix2 fexp (B2R eps) = B2R eps_up.
Proof. rewrite succ_near by apply eps_range. destruct eps_vals as (-> & -> & _). rewrite bpow69. lra. Qed.
Lemma pred_eps : pred radix2 fexp (B2R eps) = B2R eps_down.
Proof.
  assert (E : B2R eps = succ radix2 fexp (B2R eps_down)). { rewrite succ_near by apply eps_range. destruct eps_vals as (-> & _ & ->). rewrite bpow69. lra. }
  rewrite E. apply pred_succ; [apply fexp_correct; reflexivity|]. apply generic_format_B2R.
Qed.

(** *** Where rounding leaves a number on either side of EPSILON *)
Lemma rnd_above r : (B2R eps < rnd r)%R <-> (B2R eps + B2R half_ulp <= r)%R.
Proof.
  destruct eps_vals as (E1 & E2 & _). pose proof pos70 as P. pose proof half_ulp_val as Hu. split.
  - intros H. destruct (Rle_lt_dec (B2R eps + B2R half_ulp) r) as [|L]; auto. exfalso.
    assert (rnd r <= B2R eps)%R; [|lra].
    apply (round_N_le_midp radix2 fexp); [apply generic_format_B2R|]. rewrite succ_eps. lra.
  - intros H. assert (B2R eps_up <= rnd r)%R; [|lra]. rewrite <- tie_up. apply round_le; auto with typeclass_instances.
Qed.
Lemma rnd_below r : (rnd r < B2R eps)%R <-> (r <= B2R eps - B2R half_ulp)%R.
Proof.
  destruct eps_vals as (E1 & _ & E2). pose proof pos70 as P. pose proof half_ulp_val as Hu. split.
  - intros H. destruct (Rle_lt_dec r (B2R eps - B2R half_ulp)) as [|L]; auto. exfalso.
    assert (B2R eps <= rnd r)%R; [|lra].
    apply (round_N_ge_midp radix2 fexp); [apply generic_format_B2R|]. rewrite pred_eps. lra.
  - intros H. assert (rnd r <= B2R eps_down)%R; [|lra]. rewrite <- tie_down. apply round_le; auto with typeclass_instances.
Qed.
Lemma rnd_opp r : rnd (- r) = (- rnd r)%R.
Proof. apply round_NE_opp. Qed.

(** *** The difference of two doubles against EPSILON *)
Definition epsSF : B2SF eps = EPSILON := eq_refl.
Lemma sub_cases (x y : bin) : is_finite x = true -> is_finite y = true ->
  (is_finite (Bminus mode_NE x y) = true /\ B2R (Bminus mode_NE x y) = rnd (B2R x - B2R y)) \/
  (exists s, Bminus mode_NE x y = B754_infinity s /\ if s then (rnd (B2R x - B2R y) < -1)%R else (1 < rnd (B2R x - B2R y))%R).
Proof.
  intros Fx Fy. pose proof (Bminus_correct 53 1024 _ _ mode_NE x y Fx Fy) as H.
  destruct (Rlt_bool_spec (Rabs (rnd (B2R x - B2R y))) (bpow radix2 1024)) as [L|L]; [left; tauto|right].
  destruct H as [H S]. exists (Bsign x).
  assert (E : Bminus mode_NE x y = B754_infinity (Bsign x)). { apply B2SF_inj. rewrite H. reflexivity. }
  split; auto.
  assert (P1 : (1 < bpow radix2 1024)%R) by (change 1%R with (bpow radix2 0); apply bpow_lt; reflexivity).
  assert (Sx : (if Bsign x then B2R x <= 0 else 0 <= B2R x)%R /\ (if Bsign y then B2R y <= 0 else 0 <= B2R y)%R).
  { assert (G : forall z : bin, (if Bsign z then B2R z <= 0 else 0 <= B2R z)%R).
    { intros [s|s| |s m e Hb]; cbn; try (destruct s; lra); try lra. destruct s; cbn; [apply F2R_le_0|apply F2R_ge_0]; cbn; lia. }
    split; [exact (G x)|exact (G y)]. }
  rewrite S in *. destruct Sx as [Sx Sy]. destruct (Bsign y); cbn [negb] in *.
  - assert (0 <= rnd (B2R x - B2R y))%R. { rewrite <- (round_0 radix2 fexp (round_mode mode_NE)). apply round_le; auto with typeclass_instances. lra. }
    rewrite Rabs_pos_eq in L by auto. lra.
  - assert (rnd (B2R x - B2R y) <= 0)%R. { rewrite <- (round_0 radix2 fexp (round_mode mode_NE)). apply round_le; auto with typeclass_instances. lra. }
    rewrite Rabs_left1 in L by auto. lra.
Qed.

Lemma eps_lt_1 : (0 < B2R eps < 1)%R.
Proof.
  destruct eps_range as [[H1 H2] _]. pose proof (bpow_gt_0 radix2 (-17)). split; [lra|]. eapply Rlt_trans; [exact H2|].
  change 1%R with (bpow radix2 0). apply bpow_lt. reflexivity.
Qed.
Lemma sub_above (x y : bin) : is_finite x = true -> is_finite y = true ->
  (SFltb EPSILON (dsub (B2SF x) (B2SF y)) = true <-> (B2R eps + B2R half_ulp <= B2R x - B2R y)%R).
Proof.
  intros Fx Fy. rewrite dsub_equiv, <- epsSF, <- rnd_above. pose proof eps_lt_1.
  destruct (sub_cases x y Fx Fy) as [[F V]|(s & E & V)].
  - rewrite ltb_finite, V by auto. reflexivity.
  - rewrite E. destruct s; split; intros T; [discriminate T|lra|lra|reflexivity].
Qed.
Lemma sub_under (x y : bin) : is_finite x = true -> is_finite y = true ->
  (SFltb (dsub (B2SF x) (B2SF y)) (SFopp EPSILON) = true <-> (B2R eps + B2R half_ulp <= B2R y - B2R x)%R).
Proof.
  intros Fx Fy. rewrite <- rnd_above. replace (B2R y - B2R x)%R with (- (B2R x - B2R y))%R by ring. rewrite rnd_opp.
  rewrite dsub_equiv. change (SFopp EPSILON) with (B2SF (Bopp eps)). pose proof eps_lt_1.
  destruct (sub_cases x y Fx Fy) as [[F V]|(s & E & V)].
  - rewrite ltb_finite, V by auto. rewrite B2R_Bopp. split; lra.
  - rewrite E. destruct s; split; intros T; [lra|reflexivity|discriminate T|lra].
Qed.
Lemma sub_within (x y : bin) : is_finite x = true -> is_finite y = true ->
  (SFltb (dabs (dsub (B2SF x) (B2SF y))) EPSILON = true <-> (Rabs (B2R x - B2R y) <= B2R eps - B2R half_ulp)%R).
Proof.
  intros Fx Fy. rewrite dsub_equiv. rewrite <- rnd_below. unfold dabs. change (S754_zero false) with (B2SF (B754_zero false : bin)). pose proof eps_lt_1.
  assert (A : rnd (Rabs (B2R x - B2R y)) = Rabs (rnd (B2R x - B2R y))) by (apply round_NE_abs; auto with typeclass_instances). rewrite A.
  destruct (sub_cases x y Fx Fy) as [[F V]|(s & E & V)].
  - rewrite <- V. destruct (SFltb (B2SF (Bminus mode_NE x y)) (B2SF (B754_zero false))) eqn:L.
    + apply ltb_finite in L; auto. cbn [B2R] in L.
      assert (O : SFopp (B2SF (Bminus mode_NE x y)) = B2SF (Bopp (Bminus mode_NE x y))) by (destruct (Bminus mode_NE x y); reflexivity).
      rewrite O, <- epsSF, ltb_finite; auto; [|rewrite is_finite_Bopp; auto]. rewrite B2R_Bopp, Rabs_left by auto. reflexivity.
    + assert (~ (B2R (Bminus mode_NE x y) < 0)%R). { intros N. rewrite (proj2 (ltb_finite _ (B754_zero false : bin) F eq_refl)) in L; [discriminate|exact N]. }
      rewrite <- epsSF, ltb_finite by auto. rewrite Rabs_pos_eq by lra. reflexivity.
  - rewrite E. destruct s; split; intros T; [discriminate T|rewrite Rabs_left in T by lra; lra|discriminate T|rewrite Rabs_pos_eq in T by lra; lra].
Qed.

(** *** In terms of the specification *)
Lemma above_val : Q2R above_eps = (B2R eps + B2R half_ulp)%R.
Proof.
  destruct eps_vals as (-> & _). rewrite half_ulp_val. change (-70) with (- (70)). rewrite bpow_opp. change (bpow radix2 70) with (IZR 1180591620717411303424).
  unfold Q2R, above_eps. cbn [Qnum Qden]. field.
Qed.
Lemma below_val : Q2R below_eps = (B2R eps - B2R half_ulp)%R.
Proof.
  destruct eps_vals as (-> & _). rewrite half_ulp_val. change (-70) with (- (70)). rewrite bpow_opp. change (bpow radix2 70) with (IZR 1180591620717411303424).
  unfold Q2R, below_eps. cbn [Qnum Qden]. field.
Qed.
Lemma Qle_R a b : (a <= b)%Q <-> (Q2R a <= Q2R b)%R.
Proof. split; [apply Qle_Rle|apply Rle_Qle]. Qed.
Lemma lift (x : spec_float) : double x -> exists b : bin, B2SF b = x.
Proof. intros H. exists (SF2B x H). apply B2SF_SF2B. Qed.
Lemma cmp_exact x y : double x -> double y -> finite x -> finite y ->
  (float_cmp x y = 1 <-> (above_eps <= dval y - dval x)%Q) /\
  (float_cmp x y = -1 <-> (above_eps <= dval x - dval y)%Q).
Proof.
  intros Dx Dy. destruct (lift x Dx) as [bx <-], (lift y Dy) as [by_ <-]. rewrite !finite_equiv. intros Fx Fy. unfold float_cmp.
  pose proof (sub_above by_ bx Fy Fx) as A. pose proof (sub_under by_ bx Fy Fx) as U. pose proof eps_lt_1 as E. pose proof half_ulp_val as Hu. pose proof pos70.
  rewrite !Qle_R, !Q2R_minus, !Q2R_dval, above_val.
  destruct (SFltb (dsub (B2SF by_) (B2SF bx)) (SFopp EPSILON)), (SFltb EPSILON (dsub (B2SF by_) (B2SF bx))); rewrite <- A, <- U.
  - exfalso. pose proof (proj1 A eq_refl). pose proof (proj1 U eq_refl). lra.
  - split; split; intros; auto; discriminate.
  - split; split; intros; auto; discriminate.
  - split; split; intros; auto; discriminate.
Qed.
Lemma Q2R_abs q : Q2R (Qabs q) = Rabs (Q2R q).
Proof.
  apply Qabs_case; intros H; apply Qle_Rle in H; rewrite RMicromega.Q2R_0 in H; [rewrite Rabs_pos_eq; auto|rewrite Q2R_opp, Rabs_left1; auto].
Qed.
Lemma equals_exact x y : double x -> double y -> finite x -> finite y ->
  (float_equals x y = 1 <-> (Qabs (dval x - dval y) <= below_eps)%Q).
Proof.
  intros Dx Dy. destruct (lift x Dx) as [bx <-], (lift y Dy) as [by_ <-]. rewrite !finite_equiv. intros Fx Fy. unfold float_equals.
  rewrite Qle_R, Q2R_abs, !Q2R_minus, !Q2R_dval, below_val. rewrite <- (sub_within bx by_ Fx Fy).
  destruct (SFltb _ _); split; auto; discriminate.
Qed.
