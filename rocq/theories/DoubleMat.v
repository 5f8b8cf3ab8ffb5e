(** Vec<double> and Mat<double>: every operation that computes one result per element rounds it
    correctly; error bounds for the ones that sum. *)
From Coq Require Import Reals Qreals QArith Lra Lia SpecFloat.
From Flocq Require Import Core BinarySingleNaN Relative Plus_error.
From Verif Require Import Base IntModel IntBasics FracModel FracSpec CommonModel CommonSpec CommonProofs ElemModel ElemSpec ElemProofs VecModel VecProofs
  MatModel MatSpec MatProofs DoubleModel DoubleSpec DoubleProofs DoubleVec DoubleRange.
#[local] Existing Instances Hprec Hmax Vexp.
Local Open Scope R_scope.
Local Notation u := unit_roundoff.

(** *** Where rounding overflows *)
Lemma overflow_bpow : overflow_at = IZR 18014398509481983 * bpow radix2 970.
Proof. unfold overflow_at. rewrite <- (bpow_powerRZ radix2). reflexivity. Qed.
Lemma top_bpow : bpow radix2 1024 = IZR 18014398509481984 * bpow radix2 970.
Proof. change 1024%Z with (54 + 970)%Z. rewrite bpow_plus. reflexivity. Qed.
Lemma top_low : bpow radix2 1023 = IZR 9007199254740992 * bpow radix2 970.
Proof. change 1023%Z with (53 + 970)%Z. rewrite bpow_plus. reflexivity. Qed.
Lemma largest_970 : largest = IZR 18014398509481982 * bpow radix2 970.
Proof.
  unfold largest. rewrite <- (bpow_powerRZ radix2). change (bpow radix2 971) with (bpow radix2 (1 + 970)). rewrite bpow_plus. change (bpow radix2 1) with 2. ring.
Qed.
Lemma largest_succ : succ radix2 fexp largest = bpow radix2 1024.
Proof.
  pose proof (bpow_gt_0 radix2 970) as P. rewrite succ_eq_pos by (rewrite largest_970; lra). rewrite ulp_neq_0 by (rewrite largest_970; lra). unfold cexp.
  rewrite (mag_unique radix2 largest 1024).
  - change (fexp 1024) with (1 + 970)%Z. rewrite bpow_plus, largest_970, top_bpow. change (bpow radix2 1) with 2. ring.
  - change (1024 - 1)%Z with 1023%Z. rewrite top_low, top_bpow, largest_970, Rabs_pos_eq by lra. lra.
Qed.
Lemma rnd_overflow_at : rnd overflow_at = bpow radix2 1024.
Proof.
  pose proof (bpow_gt_0 radix2 970) as P.
  unfold round, scaled_mantissa, cexp. rewrite (mag_unique radix2 overflow_at 1024).
  2:{ change (1024 - 1)%Z with 1023%Z. rewrite top_low, top_bpow, overflow_bpow, Rabs_pos_eq by lra. lra. }
  change (fexp 1024) with 971%Z. rewrite overflow_bpow, Rmult_assoc, <- bpow_plus. change (bpow radix2 (970 + - (971))) with (/ 2).
  assert (F : Zfloor (IZR 18014398509481983 * / 2) = 9007199254740991%Z) by (apply Zfloor_imp; rewrite plus_IZR; lra).
  cbn [round_mode]. unfold Znearest. rewrite F, Rcompare_Eq by lra. change (negb (Z.even 9007199254740991)) with true. cbn [negb].
  rewrite Zceil_floor_neq by (rewrite F; lra). rewrite F. unfold F2R. cbn [Fnum Fexp]. change (9007199254740991 + 1)%Z with (2 ^ 53)%Z.
  change (IZR (2 ^ 53)) with (bpow radix2 53). rewrite <- bpow_plus. reflexivity.
Qed.
Lemma rnd_below_top r : Rabs r < overflow_at -> Rabs (rnd r) < bpow radix2 1024.
Proof.
  intros H. assert (A : forall t, t < overflow_at -> rnd t <= largest).
  { intros t Ht. apply (round_N_le_midp radix2 fexp); [apply largest_format|]. rewrite largest_succ, top_bpow, largest_970. rewrite overflow_bpow in Ht. lra. }
  eapply Rle_lt_trans; [|apply largest_lt]. apply Rabs_lt_inv in H. apply Rabs_le. split.
  - assert (B : rnd (- r) <= largest) by (apply A; lra). rewrite rnd_opp in B. lra.
  - apply A. lra.
Qed.
Lemma rnd_from_top r : overflow_at <= r -> bpow radix2 1024 <= rnd r.
Proof. intros H. rewrite <- rnd_overflow_at. apply rnd_le, H. Qed.

(** *** Ties *)
Lemma fexp_even : Exists_NE radix2 fexp.
Proof. apply (exists_NE_FLT radix2 (-1074) 53). right. reflexivity. Qed.
Lemma even_unique (b : bin) (g : float radix2) : is_finite b = true -> B2R b = F2R g -> canonical radix2 fexp g -> Z.even (Fnum g) = true -> even_significand (B2SF b).
Proof.
  intros F E C Ev. destruct b as [s|s| |s m e H]; try discriminate; [exact I|]. cbn [B2SF even_significand].
  assert (Cb : canonical radix2 fexp (Float radix2 (cond_Zopp s (Z.pos m)) e)).
  { apply canonical_canonical_mantissa. exact (proj1 (andb_prop _ _ H)). }
  cbn [B2R] in E. pose proof (canonical_unique _ _ _ _ Cb C E) as G. rewrite <- G in Ev. cbn [Fnum] in Ev. destruct s; exact Ev.
Qed.
Lemma nearest_bin r (d : spec_float) : nearest r d -> exists b : bin, B2SF b = d /\ is_finite b = true.
Proof. intros (D & F & _). apply lift_finite; auto. Qed.
Lemma rounded_finite (b : bin) r : is_finite b = true -> B2R b = rnd r -> Rabs r < overflow_at -> rounded (B2SF b) r.
Proof.
  intros F E H. pose proof (nearest_rnd b r F E) as N. split; [apply double_bin|]. split; [|apply Rabs_lt_inv in H; split; intros; exfalso; lra].
  intros _. split; [exact N|]. intros d' N'. destruct (nearest_bin r d' N') as (b' & <- & F'). rewrite !dR_bin.
  destruct (@round_NE_pt radix2 fexp Vexp fexp_even r) as [Nr [(g & G1 & G2 & G3)|U]].
  - right. apply (even_unique b g F); auto. rewrite E. exact G1.
  - left. rewrite E. symmetry. change (rnd r) with (round radix2 fexp ZnearestE r). symmetry. apply U. split; [apply generic_format_B2R|]. intros t Gt.
    destruct N' as (_ & _ & N'). destruct N as (_ & _ & N). specialize (N' _ (double_bin b) (proj2 (finite_equiv b) F)). rewrite !dR_bin, E in N'.
    eapply Rle_trans; [exact N'|]. destruct (round_N_pt radix2 fexp (fun z => negb (Z.even z)) r) as [_ M]. apply M, Gt.
Qed.
Lemma overflow_sign : forall s, binary_overflow 53 1024 mode_NE s = S754_infinity s.
Proof. reflexivity. Qed.
Lemma rounded_infinite (d : spec_float) r s : d = S754_infinity s -> bpow radix2 1024 <= Rabs (rnd r) -> (s = false -> 0 <= r) -> (s = true -> r <= 0) -> rounded d r.
Proof.
  intros -> H P N. assert (O : 0 < overflow_at) by (rewrite overflow_bpow; pose proof (bpow_gt_0 radix2 970); lra). split; [destruct s; reflexivity|]. split; [|split].
  - intros C. apply rnd_below_top in C. lra.
  - intros C. destruct s; [|reflexivity]. specialize (N eq_refl). lra.
  - intros C. destruct s; [reflexivity|]. specialize (P eq_refl). lra.
Qed.
Lemma Rlt_bool_top r : Rlt_bool (Rabs (rnd r)) (bpow radix2 1024) = true -> Rabs r < overflow_at.
Proof.
  intros H. destruct (Rlt_bool_spec (Rabs (rnd r)) (bpow radix2 1024)) as [L|L]; [|discriminate]. apply Rnot_le_lt. intros G.
  apply (Rlt_not_le _ _ L). unfold Rabs in G. destruct (Rcase_abs r) as [C|C].
  - apply rnd_from_top in G. rewrite rnd_opp in G. rewrite <- Rabs_Ropp. eapply Rle_trans; [exact G|apply Rle_abs].
  - apply rnd_from_top in G. eapply Rle_trans; [exact G|apply Rle_abs].
Qed.

(** *** Each operation rounds *)
Lemma R_double_bin d r : R_double d r -> exists b : bin, d = B2SF b /\ is_finite b = true /\ B2R b = r.
Proof. intros (D & F & E). destruct (lift_finite d D F) as (b & B & Fb). exists b. subst d. rewrite dR_bin in E. auto. Qed.
Lemma bin_double (b : bin) : is_finite b = true -> R_double (B2SF b) (B2R b).
Proof. intros F. split; [apply double_bin|]. split; [apply finite_equiv, F|apply dR_bin]. Qed.
Lemma sign_le (b : bin) : (Bsign b = false -> 0 <= B2R b) /\ (Bsign b = true -> B2R b <= 0).
Proof.
  destruct b as [s|s| |s m e H]; cbn [Bsign B2R]; split; intros; subst; try lra; [apply F2R_ge_0; cbn; lia|apply F2R_le_0; cbn; lia].
Qed.
Lemma not_below r : Rlt_bool (Rabs (rnd r)) (bpow radix2 1024) = false -> bpow radix2 1024 <= Rabs (rnd r).
Proof. intros H. destruct (Rlt_bool_spec (Rabs (rnd r)) (bpow radix2 1024)) as [L|L]; [discriminate|exact L]. Qed.
Lemma add_rounded x y a b : R_double x a -> R_double y b -> rounded (SFadd 53 1024 x y) (a + b).
Proof.
  intros Hx Hy. destruct (R_double_bin x a Hx) as (p & -> & Fp & <-). destruct (R_double_bin y b Hy) as (q & -> & Fq & <-). rewrite add_equiv.
  pose proof (Bplus_correct 53 1024 Hprec Hmax mode_NE p q Fp Fq) as C. destruct (Rlt_bool _ _) eqn:L.
  - destruct C as (C1 & C2 & _). apply rounded_finite; auto. apply Rlt_bool_top, L.
  - destruct C as (C1 & C2). rewrite overflow_sign in C1. apply not_below in L. destruct (sign_le p) as [P1 P2]. destruct (sign_le q) as [Q1 Q2]. rewrite <- C2 in Q1, Q2.
    apply (rounded_infinite _ _ (Bsign p) C1 L); intros S; [specialize (P1 S); specialize (Q1 S)|specialize (P2 S); specialize (Q2 S)]; lra.
Qed.
Lemma opp_exact x a : R_double x a -> R_double (SFopp x) (- a).
Proof. intros Hx. destruct (R_double_bin x a Hx) as (p & -> & Fp & <-). rewrite opp_equiv, <- B2R_Bopp. apply bin_double. rewrite is_finite_Bopp. exact Fp. Qed.
Lemma sub_rounded x y a b : R_double x a -> R_double y b -> rounded (dsub x y) (a - b).
Proof.
  intros Hx Hy. destruct (R_double_bin x a Hx) as (p & -> & Fp & <-). destruct (R_double_bin y b Hy) as (q & -> & Fq & <-). rewrite dsub_equiv.
  pose proof (Bminus_correct 53 1024 Hprec Hmax mode_NE p q Fp Fq) as C. destruct (Rlt_bool _ _) eqn:L.
  - destruct C as (C1 & C2 & _). apply rounded_finite; auto. apply Rlt_bool_top, L.
  - destruct C as (C1 & C2). rewrite overflow_sign in C1. apply not_below in L. destruct (sign_le p) as [P1 P2]. destruct (sign_le q) as [Q1 Q2].
    apply (rounded_infinite _ _ (Bsign p) C1 L); intros S; rewrite S in C2; [specialize (P1 S); destruct (Bsign q); [specialize (Q2 eq_refl)|discriminate]|specialize (P2 S); destruct (Bsign q); [discriminate|specialize (Q1 eq_refl)]]; lra.
Qed.
Lemma mul_rounded x y a b : R_double x a -> R_double y b -> rounded (SFmul 53 1024 x y) (a * b).
Proof.
  intros Hx Hy. destruct (R_double_bin x a Hx) as (p & -> & Fp & <-). destruct (R_double_bin y b Hy) as (q & -> & Fq & <-). rewrite mul_equiv.
  pose proof (Bmult_correct 53 1024 Hprec Hmax mode_NE p q) as C. destruct (Rlt_bool _ _) eqn:L.
  - destruct C as (C1 & C2 & _). rewrite Fp, Fq in C2. apply rounded_finite; auto. apply Rlt_bool_top, L.
  - rewrite overflow_sign in C. apply not_below in L. destruct (sign_le p) as [P1 P2]. destruct (sign_le q) as [Q1 Q2].
    apply (rounded_infinite _ _ _ C L); intros S; destruct (Bsign p), (Bsign q); try discriminate; try specialize (P1 eq_refl); try specialize (P2 eq_refl); try specialize (Q1 eq_refl); try specialize (Q2 eq_refl); nra.
Qed.
Lemma div_rounded x y a b : R_double x a -> R_double y b -> b <> 0 -> rounded (SFdiv 53 1024 x y) (a / b).
Proof.
  intros Hx Hy Nz. destruct (R_double_bin x a Hx) as (p & -> & Fp & <-). destruct (R_double_bin y b Hy) as (q & -> & Fq & <-). rewrite div_equiv.
  pose proof (Bdiv_correct 53 1024 Hprec Hmax mode_NE p q Nz) as C. destruct (Rlt_bool _ _) eqn:L.
  - destruct C as (C1 & C2 & _). rewrite Fp in C2. apply rounded_finite; auto. apply Rlt_bool_top, L.
  - rewrite overflow_sign in C. apply not_below in L. destruct (sign_le p) as [P1 P2]. destruct (sign_le q) as [Q1 Q2]. unfold Rdiv in *.
    assert (I1 : 0 < B2R q -> 0 < / B2R q) by apply Rinv_0_lt_compat. assert (I2 : B2R q < 0 -> / B2R q < 0) by apply Rinv_lt_0_compat.
    apply (rounded_infinite _ _ _ C L); intros S; destruct (Bsign p), (Bsign q); try discriminate; try specialize (P1 eq_refl); try specialize (P2 eq_refl); try specialize (Q1 eq_refl); try specialize (Q2 eq_refl);
      try (specialize (I1 ltac:(lra))); try (specialize (I2 ltac:(lra))); nra.
Qed.

(** *** Element by element *)
Lemma vec_pair op f x y n v w : (forall a b s t, R_double a s -> R_double b t -> exists c, op a (Some b) = Ok c /\ rounded c (f s t)) ->
  seq_of R_double x n v -> seq_of R_double y n w -> exists z, vec_binary op x y = Ok z /\ seq_of rounded z n (fun i => f (v i) (w i)).
Proof.
  intros Hop Hx Hy. apply ret_False. apply (vec_binary_pt never R_double rounded op f x y n v w); auto. intros i e d _ He Hd.
  destruct (Hop e d _ _ He Hd) as (c & -> & Hc). apply ret_ok, Hc.
Qed.
Lemma vec_into op f x y n v w : (forall a b s t, R_double a s -> R_double b t -> exists c, op a (Some b) = Ok c /\ rounded c (f s t)) ->
  seq_of R_double x n v -> match y with None => forall i, (i < n)%nat -> w i = v i | Some y => seq_of R_double y n w end ->
  exists z, vec_assign op x y = (z, Ok tt) /\ seq_of rounded z n (fun i => f (v i) (w i)).
Proof.
  intros Hop Hx Hy. pose proof (vec_assign_pt never R_double rounded op f x y n v w) as H. destruct (vec_assign op x y) as [z r] eqn:E.
  destruct H as [[H1 H2]|(h & [] & _)]; auto.
  - intros i e d _ He Hd. destruct (Hop e d _ _ He Hd) as (c & -> & Hc). apply ret_ok, Hc.
  - cbn in H1, H2. subst r. eauto.
Qed.
Lemma vec_by op (f : R -> R -> R) x a n v c : (forall b s, R_double b s -> exists e, op b (Some a) = Ok e /\ rounded e (f s c)) ->
  seq_of R_double x n v -> exists z, scale_assign op x (Val a) = (z, Ok tt) /\ seq_of rounded z n (fun i => f (v i) c).
Proof.
  intros Hop Hx. pose proof (scale_val_pt never R_double rounded op f x a n v c) as H. destruct (scale_assign op x (Val a)) as [z r] eqn:E.
  destruct H as [[H1 H2]|(h & [] & _)]; auto.
  - intros i e _ He. destruct (Hop e _ He) as (d & -> & Hd). apply ret_ok, Hd.
  - cbn in H1, H2. subst r. eauto.
Qed.
Lemma mat_pair op f x y r c g h : (forall a b s t, R_double a s -> R_double b t -> exists e, op a b = Ok e /\ rounded e (f s t)) ->
  mat_of R_double x r c g -> mat_of R_double y r c h -> exists z, mat_binary double_ops op x y = Ok z /\ mat_of rounded z r c (fun i j => f (g i j) (h i j)).
Proof.
  intros Hop Hx Hy. apply ret_False. unfold mat_binary. pose proof (mat_of_dims _ _ _ _ _ Hx) as Dx. pose proof (mat_of_dims _ _ _ _ _ Hy) as Dy.
  rewrite (same_dims_yes x y r c Dx Dy). cbn [negb]. destruct Dx as (-> & -> & _). apply (fill_new never double_ops rounded). intros i j Hi Hj.
  eapply ret_bind; [apply (entry_of never R_double x r c g i j); auto|]. intros a Ha.
  eapply ret_bind; [apply (entry_of never R_double y r c h i j); auto|]. intros b Hb. destruct (Hop a b _ _ Ha Hb) as (e & -> & He). apply ret_ok, He.
Qed.
Lemma mat_into op f x y r c g h : (forall a b s t, R_double a s -> R_double b t -> exists c, op a (Some b) = Ok c /\ rounded c (f s t)) ->
  mat_of R_double x r c g -> match y with None => forall i j, (i < r)%nat -> (j < c)%nat -> h i j = g i j | Some y => mat_of R_double y r c h end ->
  exists z, mat_assign op x y = (z, Ok tt) /\ mat_of rounded z r c (fun i j => f (g i j) (h i j)).
Proof.
  intros Hop Hx Hy. pose proof (mat_assign_pt never R_double rounded op f x y r c g h) as H. destruct (mat_assign op x y) as [z q] eqn:E.
  destruct H as [[H1 H2]|(k & [] & _)]; auto.
  - intros i j a b _ _ Ha Hb. destruct (Hop a b _ _ Ha Hb) as (e & -> & He). apply ret_ok, He.
  - cbn in H1, H2. subst q. eauto.
Qed.
Lemma mat_by op (f : R -> R -> R) x a r c g t : (forall b s, R_double b s -> exists e, op b (Some a) = Ok e /\ rounded e (f s t)) ->
  mat_of R_double x r c g -> exists z, mat_scale_assign op x (MVal a) = (z, Ok tt) /\ mat_of rounded z r c (fun i j => f (g i j) t).
Proof.
  intros Hop Hx. pose proof (mat_scale_val_pt never R_double rounded op f x a r c g t) as H. destruct (mat_scale_assign op x (MVal a)) as [z q] eqn:E.
  destruct H as [[H1 H2]|(k & [] & _)]; auto.
  - intros i j b _ _ Hb. destruct (Hop b _ Hb) as (e & -> & He). apply ret_ok, He.
  - cbn in H1, H2. subst q. eauto.
Qed.
Lemma mat_each (op : spec_float -> res spec_float) f x r c g : (forall b s, R_double b s -> exists e, op b = Ok e /\ rounded e (f s)) ->
  mat_of R_double x r c g -> exists z, final (fill (rows x) (cols x) (fun i j => a <- entry x i j ;; op a) (Mat_new double_ops (rows x) (cols x))) = Ok z /\
    mat_of rounded z r c (fun i j => f (g i j)).
Proof.
  intros Hop Hx. apply ret_False. destruct (mat_of_dims _ _ _ _ _ Hx) as (-> & -> & _). apply (fill_new never double_ops rounded). intros i j Hi Hj.
  eapply ret_bind; [apply (entry_of never R_double x r c g i j); auto|]. intros a Ha. destruct (Hop a _ Ha) as (e & -> & He). apply ret_ok, He.
Qed.

Lemma addA_rounds a b s t : R_double a s -> R_double b t -> exists c, addA double_ops a (Some b) = Ok c /\ rounded c (s + t).
Proof. intros. eexists. split; [reflexivity|]. apply add_rounded; auto. Qed.
Lemma subA_rounds a b s t : R_double a s -> R_double b t -> exists c, subA double_ops a (Some b) = Ok c /\ rounded c (s - t).
Proof. intros. eexists. split; [reflexivity|]. apply sub_rounded; auto. Qed.
Lemma mulA_rounds a b s t : R_double a s -> R_double b t -> exists c, mulA double_ops a (Some b) = Ok c /\ rounded c (s * t).
Proof. intros. eexists. split; [reflexivity|]. apply mul_rounded; auto. Qed.
Lemma divA_rounds a b s t : R_double a s -> R_double b t -> t <> 0 -> exists c, divA double_ops a (Some b) = Ok c /\ rounded c (s / t).
Proof. intros. eexists. split; [reflexivity|]. apply div_rounded; auto. Qed.

Lemma vec_rounded x y a n v w s : seq_of R_double x n v -> seq_of R_double y n w -> R_double a s ->
  (exists z, V_add double_ops x y = Ok z /\ seq_of rounded z n (fun i => v i + w i)) /\
  (exists z, V_sub double_ops x y = Ok z /\ seq_of rounded z n (fun i => v i - w i)) /\
  (exists z, V_mul double_ops x a = Ok z /\ seq_of rounded z n (fun i => v i * s)) /\
  (s <> 0 -> exists z, V_div double_ops x a = Ok z /\ seq_of rounded z n (fun i => v i / s)).
Proof.
  intros Hx Hy Ha. split; [|split; [|split]].
  - apply (vec_pair _ Rplus); auto. apply addA_rounds.
  - apply (vec_pair _ Rminus); auto. apply subA_rounds.
  - destruct (vec_by (mulA double_ops) Rmult x a n v s) as (z & E & Hz); auto; [intros; apply mulA_rounds; auto|]. exists z. unfold V_mul, V_scale, V_mul_assign. rewrite E. auto.
  - intros N. destruct (vec_by (divA double_ops) Rdiv x a n v s) as (z & E & Hz); auto; [intros; apply divA_rounds; auto|]. exists z. unfold V_div, V_div_assign. rewrite E. auto.
Qed.
Lemma vec_rounded_assign x y a n v w s : seq_of R_double x n v -> match y with None => forall i, (i < n)%nat -> w i = v i | Some y => seq_of R_double y n w end -> R_double a s ->
  (exists z, V_add_assign double_ops x y = (z, Ok tt) /\ seq_of rounded z n (fun i => v i + w i)) /\
  (exists z, V_sub_assign double_ops x y = (z, Ok tt) /\ seq_of rounded z n (fun i => v i - w i)) /\
  (exists z, V_mul_assign double_ops x (Val a) = (z, Ok tt) /\ seq_of rounded z n (fun i => v i * s)) /\
  (s <> 0 -> exists z, V_div_assign double_ops x (Val a) = (z, Ok tt) /\ seq_of rounded z n (fun i => v i / s)).
Proof.
  intros Hx Hy Ha. split; [|split; [|split]].
  - apply (vec_into _ Rplus); auto. apply addA_rounds.
  - apply (vec_into _ Rminus); auto. apply subA_rounds.
  - apply (vec_by (mulA double_ops) Rmult x a n v s); auto. intros; apply mulA_rounds; auto.
  - intros N. apply (vec_by (divA double_ops) Rdiv x a n v s); auto. intros; apply divA_rounds; auto.
Qed.
Lemma exact_rounded d r : R_double d r -> Rabs r < overflow_at -> rounded d r.
Proof.
  intros H O. destruct (R_double_bin d r H) as (b & -> & F & <-). apply rounded_finite; auto. symmetry. apply rnd_format, generic_format_B2R.
Qed.
Lemma mat_rounded x y a r c g h s : mat_of R_double x r c g -> mat_of R_double y r c h -> R_double a s ->
  (exists z, M_add double_ops x y = Ok z /\ mat_of rounded z r c (fun i j => g i j + h i j)) /\
  (exists z, M_sub double_ops x y = Ok z /\ mat_of rounded z r c (fun i j => g i j - h i j)) /\
  (exists z, M_neg double_ops x = Ok z /\ mat_of R_double z r c (fun i j => - g i j)) /\
  (exists z, M_scale double_ops a x = Ok z /\ mat_of rounded z r c (fun i j => s * g i j)) /\
  (s <> 0 -> exists z, M_div double_ops x a = Ok z /\ mat_of rounded z r c (fun i j => g i j / s)).
Proof.
  intros Hx Hy Ha. split; [|split; [|split; [|split]]].
  - apply (mat_pair _ Rplus); auto. intros. eexists. split; [reflexivity|]. apply add_rounded; auto.
  - apply (mat_pair _ Rminus); auto. intros. eexists. split; [reflexivity|]. apply sub_rounded; auto.
  - apply ret_False. apply (M_neg_ok double_ops never R_double Ropp x r c g); auto. intros b t Hb. apply ret_ok, opp_exact, Hb.
  - apply (mat_each (fun b => mul double_ops a b) (fun t => s * t)); auto. intros. eexists. split; [reflexivity|]. apply mul_rounded; auto.
  - intros N. apply (mat_each (fun b => div double_ops b a) (fun t => t / s)); auto. intros. eexists. split; [reflexivity|]. apply div_rounded; auto.
Qed.
Lemma mat_rounded_assign x y a r c g h s : mat_of R_double x r c g ->
  match y with None => forall i j, (i < r)%nat -> (j < c)%nat -> h i j = g i j | Some y => mat_of R_double y r c h end -> R_double a s ->
  (exists z, M_add_assign double_ops x y = (z, Ok tt) /\ mat_of rounded z r c (fun i j => g i j + h i j)) /\
  (exists z, M_sub_assign double_ops x y = (z, Ok tt) /\ mat_of rounded z r c (fun i j => g i j - h i j)) /\
  (exists z, M_mul_assign double_ops x (MVal a) = (z, Ok tt) /\ mat_of rounded z r c (fun i j => g i j * s)) /\
  (s <> 0 -> exists z, M_div_assign double_ops x (MVal a) = (z, Ok tt) /\ mat_of rounded z r c (fun i j => g i j / s)).
Proof.
  intros Hx Hy Ha. split; [|split; [|split]].
  - apply (mat_into _ Rplus); auto. apply addA_rounds.
  - apply (mat_into _ Rminus); auto. apply subA_rounds.
  - apply (mat_by (mulA double_ops) Rmult x a r c g s); auto. intros; apply mulA_rounds; auto.
  - intros N. apply (mat_by (divA double_ops) Rdiv x a r c g s); auto. intros; apply divA_rounds; auto.
Qed.

(** *** Sums: how far from the exact value, and when finite *)
Lemma fdot_small n v w : (forall i, (i < n)%nat -> is_finite (v i) = true /\ is_finite (w i) = true) ->
  room n (Rsum n (fun i => Rabs (B2R (v i) * B2R (w i)))) <= largest -> is_finite (fdot n v w) = true.
Proof.
  induction n as [|n IH]; intros Fv H; [reflexivity|]. cbn [Rsum] in H. set (s := Rsum n _) in *. set (p := B2R (v n) * B2R (w n)) in *.
  assert (Ps : 0 <= s) by (apply Rsum_nonneg; intros; apply Rabs_pos). pose proof (Rabs_pos p) as Pp.
  pose proof (room_step n s (Rabs p) Ps Pp) as St. pose proof u_pos as U. pose proof half_least_pos as L.
  assert (Fn : is_finite (fdot n v w) = true) by (apply IH; [auto|]; fold s; nra).
  change (fdot (S n) v w) with (Bplus mode_NE (fdot n v w) (Bmult mode_NE (v n) (w n))).
  destruct (rnd_any p) as (e & h & He & Hh & E).
  assert (Rp : Rabs (rnd p) <= Rabs p * (1 + u) + half_least).
  { rewrite E. eapply Rle_trans; [apply Rabs_triang|]. rewrite Rabs_mult. apply Rplus_le_compat; [|exact Hh]. apply Rmult_le_compat_l; [exact Pp|].
    eapply Rle_trans; [apply Rabs_triang|]. rewrite Rabs_R1. lra. }
  destruct (fdot_error n v w Fn) as [_ B]. pose proof (Rsum_abs n (fun i => B2R (v i) * B2R (w i))) as Sa. cbn beta in Sa. fold s in B, Sa.
  assert (Bd : Rabs (B2R (fdot n v w)) <= room n s).
  { replace (B2R (fdot n v w)) with ((B2R (fdot n v w) - Rsum n (fun i => B2R (v i) * B2R (w i))) + Rsum n (fun i => B2R (v i) * B2R (w i))) by ring.
    eapply Rle_trans; [apply Rabs_triang|]. unfold room. lra. }
  pose proof (Bmult_correct 53 1024 Hprec Hmax mode_NE (v n) (w n)) as C. fold p in C. rewrite Rlt_bool_true in C.
  2:{ apply rnd_no_overflow. pose proof (Rabs_pos (B2R (fdot n v w))). nra. }
  destruct C as (C1 & C2 & _). destruct (Fv n ltac:(auto)) as [F1 F2]. rewrite F1, F2 in C2.
  pose proof (Bplus_correct 53 1024 Hprec Hmax mode_NE _ _ Fn C2) as D. rewrite C1, Rlt_bool_true in D; [apply D|].
  apply rnd_no_overflow. eapply Rle_trans; [apply Rabs_triang|]. lra.
Qed.

Lemma mat_bins x r c g : mat_of R_double x r c g -> exists b, mat_of Rb x r c b /\ forall i j, (i < r)%nat -> (j < c)%nat -> is_finite (b i j) = true /\ B2R (b i j) = g i j.
Proof.
  intros (Hr & Hc & L & H). exists (fun i j => match nth_error (data x) (i * c + j) with Some (Some d) => bin_of d | _ => B754_nan end). split.
  - split; [exact Hr|]. split; [exact Hc|]. split; [exact L|]. intros i j Hi Hj. destruct (H i j Hi Hj) as (d & E & D & _). exists d. rewrite E. split; [reflexivity|]. unfold Rb. symmetry. apply bin_of_ok, D.
  - intros i j Hi Hj. destruct (H i j Hi Hj) as (d & E & Hd). rewrite E. destruct (R_double_bin d _ Hd) as (b & -> & F & Eb).
    assert (bin_of (B2SF b) = b) as -> by (apply B2SF_inj, bin_of_ok, double_bin). auto.
Qed.
Lemma product_close x y n m p g h : mat_of R_double x n m g -> mat_of R_double y m p h -> exists z, M_product double_ops x y = Ok z /\
  mat_of (dot_close m) z n p (fun i j => (Rsum m (fun k => g i k * h k j), Rsum m (fun k => Rabs (g i k * h k j)))).
Proof.
  intros Hx Hy. destruct (mat_bins x n m g Hx) as (v & Bv & Fv). destruct (mat_bins y m p h Hy) as (w & Bw & Fw).
  destruct (ret_False _ _ (M_product_ok double_ops never Rb zero (Bplus mode_NE) (Bmult mode_NE) eq_refl addA_bin mul_bin x y n m p v w Bv Bw)) as (z & E & Hz).
  exists z. split; [exact E|]. destruct Hz as (Hr & Hc & L & Hz). split; [exact Hr|]. split; [exact Hc|]. split; [exact L|]. intros i j Hi Hj. destruct (Hz i j Hi Hj) as (d & Ed & Hd). exists d. split; [exact Ed|].
  change (sum_to zero (Bplus mode_NE) m (fun k => Bmult mode_NE (v i k) (w k j))) with (fdot m (fun k => v i k) (fun k => w k j)) in Hd. red in Hd. subst d.
  assert (E1 : Rsum m (fun k => g i k * h k j) = Rsum m (fun k => B2R (v i k) * B2R (w k j))).
  { apply Rsum_ext. intros k Hk. rewrite (proj2 (Fv i k Hi Hk)), (proj2 (Fw k j Hk Hj)). reflexivity. }
  assert (E2 : Rsum m (fun k => Rabs (g i k * h k j)) = Rsum m (fun k => Rabs (B2R (v i k) * B2R (w k j)))).
  { apply Rsum_ext. intros k Hk. rewrite (proj2 (Fv i k Hi Hk)), (proj2 (Fw k j Hk Hj)). reflexivity. }
  split; [apply double_bin|]. rewrite E1, E2. split.
  - intros F. apply finite_equiv in F. rewrite dR_bin. apply (fdot_error m _ _ F).
  - intros H. apply finite_equiv. apply fdot_small; [|exact H]. intros k Hk. split; [apply Fv|apply Fw]; auto.
Qed.
(** sums without products *)
Definition fsum (n : nat) (v : nat -> bin) : bin := sum_to zero (Bplus mode_NE) n v.
Lemma zero_plus (b : bin) : is_finite b = true -> B2R (Bplus mode_NE zero b) = B2R b /\ is_finite (Bplus mode_NE zero b) = true.
Proof. destruct b as [s|s| |s m e H]; try discriminate; intros _; split; try reflexivity; destruct s; reflexivity. Qed.
Lemma fsum_error n v : is_finite (fsum n v) = true -> (forall i, (i < n)%nat -> is_finite (v i) = true) /\
  Rabs (B2R (fsum n v) - Rsum n (fun i => B2R (v i))) <= ((1 + u) ^ (n - 1) - 1) * Rsum n (fun i => Rabs (B2R (v i))).
Proof.
  induction n as [|n IH]; intros F.
  - split; [intros i Hi; lia|]. cbn [Rsum]. change (B2R (fsum 0 v)) with 0. rewrite Rminus_0_r, Rabs_R0. cbn. lra.
  - change (fsum (S n) v) with (Bplus mode_NE (fsum n v) (v n)) in *. destruct (finite_plus _ _ F) as (F1 & F2 & E). destruct (IH F1) as [IH1 IH2].
    split. { intros i Hi. destruct (Nat.eq_dec i n) as [->|N]; [auto|apply IH1; lia]. }
    replace (S n - 1)%nat with n by lia. destruct n as [|m].
    { change (fsum 0 v) with zero. rewrite (proj1 (zero_plus _ F2)). cbn [Rsum pow]. replace (B2R (v 0%nat) - (0 + B2R (v 0%nat))) with 0 by ring. rewrite Rabs_R0. lra. }
    replace (S m - 1)%nat with m in IH2 by lia. rewrite E. destruct (rnd_plus (fsum (S m) v) (v (S m))) as (e & He & ->).
    change (Rsum (S (S m)) ?f) with (Rsum (S m) f + f (S m)). cbn beta.
    set (s := B2R (fsum (S m) v)) in *. set (p := B2R (v (S m))). set (T := Rsum (S m) (fun i => B2R (v i))) in *. set (A := Rsum (S m) (fun i => Rabs _)) in *.
    assert (HS : Rabs T <= A) by apply Rsum_abs. pose proof u_pos as U. assert (A0 : 0 <= A) by (apply Rsum_nonneg; intros; apply Rabs_pos).
    replace ((s + p) * (1 + e) - (T + p)) with ((s - T) * (1 + e) + (T + p) * e) by ring.
    assert (B1 : Rabs (1 + e) <= 1 + u). { eapply Rle_trans; [apply Rabs_triang|]. rewrite Rabs_R1. lra. }
    assert (T1 : Rabs ((s - T) * (1 + e)) <= (((1 + u) ^ m - 1) * A) * (1 + u)) by (rewrite Rabs_mult; apply Rmult_le_compat; try apply Rabs_pos; auto).
    assert (T2 : Rabs ((T + p) * e) <= (A + Rabs p) * u).
    { rewrite Rabs_mult. apply Rmult_le_compat; try apply Rabs_pos; auto. eapply Rle_trans; [apply Rabs_triang|]. lra. }
    eapply Rle_trans; [apply Rabs_triang|]. cbn [pow]. pose proof (pow_ge_1 m) as P. pose proof (Rabs_pos p) as Pp.
    assert (u * Rabs p <= ((1 + u) * (1 + u) ^ m - 1) * Rabs p) by (apply Rmult_le_compat_r; [exact Pp|nra]). nra.
Qed.
Lemma fsum_small n v : (forall i, (i < n)%nat -> is_finite (v i) = true) -> (1 + u) ^ (n - 1) * Rsum n (fun i => Rabs (B2R (v i))) <= largest -> is_finite (fsum n v) = true.
Proof.
  induction n as [|n IH]; intros Fv H; [reflexivity|]. change (fsum (S n) v) with (Bplus mode_NE (fsum n v) (v n)). replace (S n - 1)%nat with n in H by lia.
  destruct n as [|m]; [apply zero_plus, Fv; auto|]. replace (S m - 1)%nat with m in IH by lia. change (Rsum (S (S m)) ?f) with (Rsum (S m) f + f (S m)) in H. cbn beta in H.
  set (A := Rsum (S m) _) in *. assert (A0 : 0 <= A) by (apply Rsum_nonneg; intros; apply Rabs_pos). pose proof u_pos as U. pose proof (pow_ge_1 m) as P. cbn [pow] in H.
  pose proof (Rabs_pos (B2R (v (S m)))) as Pv. assert (Q : 1 <= (1 + u) * (1 + u) ^ m) by nra. assert (Q2 : (1 + u) ^ m <= (1 + u) * (1 + u) ^ m) by nra.
  assert (H2 : (1 + u) ^ m * A + Rabs (B2R (v (S m))) <= largest).
  { eapply Rle_trans; [|exact H]. rewrite Rmult_plus_distr_l. apply Rplus_le_compat; [apply Rmult_le_compat_r; auto|]. rewrite <- (Rmult_1_l (Rabs _)) at 1. apply Rmult_le_compat_r; auto. }
  assert (Fn : is_finite (fsum (S m) v) = true) by (apply IH; [auto|lra]).
  destruct (fsum_error _ _ Fn) as [_ B]. replace (S m - 1)%nat with m in B by lia. fold A in B. pose proof (Rsum_abs (S m) (fun i => B2R (v i))) as Sa. cbn beta in Sa. fold A in Sa.
  assert (Bd : Rabs (B2R (fsum (S m) v)) <= (1 + u) ^ m * A).
  { replace (B2R (fsum (S m) v)) with ((B2R (fsum (S m) v) - Rsum (S m) (fun i => B2R (v i))) + Rsum (S m) (fun i => B2R (v i))) by ring.
    eapply Rle_trans; [apply Rabs_triang|]. lra. }
  pose proof (Bplus_correct 53 1024 Hprec Hmax mode_NE _ _ Fn (Fv (S m) ltac:(auto))) as D. rewrite Rlt_bool_true in D; [apply D|].
  apply rnd_no_overflow. eapply Rle_trans; [apply Rabs_triang|]. lra.
Qed.
Lemma trace_close x n g : mat_of R_double x n n g -> exists d, trace double_ops x = Ok d /\ double d /\
  (finite d -> Rabs (dR d - Rsum n (fun i => g i i)) <= ((1 + u) ^ (n - 1) - 1) * Rsum n (fun i => Rabs (g i i))) /\
  ((1 + u) ^ (n - 1) * Rsum n (fun i => Rabs (g i i)) <= largest -> finite d).
Proof.
  intros Hx. destruct (mat_bins x n n g Hx) as (v & Bv & Fv).
  destruct (ret_False _ _ (trace_ok double_ops never Rb zero (Bplus mode_NE) eq_refl addA_bin x n v Bv)) as (d & E & Hd).
  change (sum_to zero (Bplus mode_NE) n (fun i => v i i)) with (fsum n (fun i => v i i)) in Hd. red in Hd. subst d. eexists. split; [exact E|]. split; [apply double_bin|].
  assert (E1 : Rsum n (fun i => g i i) = Rsum n (fun i => B2R (v i i))) by (apply Rsum_ext; intros i Hi; rewrite (proj2 (Fv i i Hi Hi)); reflexivity).
  assert (E2 : Rsum n (fun i => Rabs (g i i)) = Rsum n (fun i => Rabs (B2R (v i i)))) by (apply Rsum_ext; intros i Hi; rewrite (proj2 (Fv i i Hi Hi)); reflexivity).
  rewrite E1, E2. split.
  - intros F. apply finite_equiv in F. rewrite dR_bin. apply (fsum_error n _ F).
  - intros H. apply finite_equiv. apply fsum_small; [|exact H]. intros i Hi. apply Fv; auto.
Qed.

(** *** Differences of products *)
Lemma fminor_error (a b c d : bin) : is_finite (Bminus mode_NE (Bmult mode_NE a b) (Bmult mode_NE c d)) = true ->
  let r := Bminus mode_NE (Bmult mode_NE a b) (Bmult mode_NE c d) in
  Rabs (B2R r - (B2R a * B2R b - B2R c * B2R d)) <= ((1 + u) ^ 2 - 1) * (Rabs (B2R a * B2R b) + Rabs (B2R c * B2R d)) + 2 * (1 + u) * half_least.
Proof.
  set (x := Bmult mode_NE a b). set (y := Bmult mode_NE c d). intros F r.
  assert (G : Bminus mode_NE x y = Bplus mode_NE x (Bopp y)) by (destruct x, y; reflexivity).
  unfold r. rewrite G in *. destruct (finite_plus _ _ F) as (F1 & F2 & E). rewrite is_finite_Bopp in F2.
  destruct (finite_mult _ _ F1) as (_ & _ & E1). destruct (finite_mult _ _ F2) as (_ & _ & E2). rewrite E.
  destruct (rnd_plus x (Bopp y)) as (e & He & ->). rewrite B2R_Bopp. unfold x, y. rewrite E1, E2.
  destruct (rnd_any (B2R a * B2R b)) as (d1 & h1 & Hd1 & Hh1 & ->). destruct (rnd_any (B2R c * B2R d)) as (d2 & h2 & Hd2 & Hh2 & ->).
  set (p := B2R a * B2R b). set (q := B2R c * B2R d). pose proof u_pos as U. pose proof half_least_pos as L.
  replace ((p * (1 + d1) + h1 + - (q * (1 + d2) + h2)) * (1 + e) - (p - q)) with (p * (d1 + e + d1 * e) + - (q * (d2 + e + d2 * e)) + (h1 * (1 + e) + - (h2 * (1 + e)))) by ring.
  assert (B1 : Rabs (1 + e) <= 1 + u). { eapply Rle_trans; [apply Rabs_triang|]. rewrite Rabs_R1. lra. }
  assert (B2 : forall t, Rabs t <= u -> Rabs (t + e + t * e) <= (1 + u) ^ 2 - 1).
  { intros t Ht. eapply Rle_trans; [apply Rabs_triang|]. eapply Rle_trans; [apply Rplus_le_compat_r, Rabs_triang|]. rewrite Rabs_mult.
    assert (Rabs t * Rabs e <= u * u) by (apply Rmult_le_compat; try apply Rabs_pos; auto). cbn [pow]. lra. }
  assert (T1 : Rabs (p * (d1 + e + d1 * e)) <= Rabs p * ((1 + u) ^ 2 - 1)) by (rewrite Rabs_mult; apply Rmult_le_compat_l; [apply Rabs_pos|auto]).
  assert (T2 : Rabs (- (q * (d2 + e + d2 * e))) <= Rabs q * ((1 + u) ^ 2 - 1)) by (rewrite Rabs_Ropp, Rabs_mult; apply Rmult_le_compat_l; [apply Rabs_pos|auto]).
  assert (T3 : Rabs (h1 * (1 + e)) <= half_least * (1 + u)) by (rewrite Rabs_mult; apply Rmult_le_compat; try apply Rabs_pos; auto).
  assert (T4 : Rabs (- (h2 * (1 + e))) <= half_least * (1 + u)) by (rewrite Rabs_Ropp, Rabs_mult; apply Rmult_le_compat; try apply Rabs_pos; auto).
  eapply Rle_trans; [apply Rabs_triang|]. pose proof (Rabs_triang (p * (d1 + e + d1 * e)) (- (q * (d2 + e + d2 * e)))). pose proof (Rabs_triang (h1 * (1 + e)) (- (h2 * (1 + e)))). lra.
Qed.
Lemma fminor_small (a b c d : bin) : is_finite a = true -> is_finite b = true -> is_finite c = true -> is_finite d = true ->
  (1 + u) * (Rabs (B2R a * B2R b) + Rabs (B2R c * B2R d)) + 2 * half_least <= largest -> is_finite (Bminus mode_NE (Bmult mode_NE a b) (Bmult mode_NE c d)) = true.
Proof.
  intros Fa Fb Fc Fd H. pose proof u_pos as U. pose proof half_least_pos as L.
  assert (G : forall x y : bin, is_finite x = true -> is_finite y = true -> (1 + u) * Rabs (B2R x * B2R y) + half_least <= largest ->
    is_finite (Bmult mode_NE x y) = true /\ Rabs (B2R (Bmult mode_NE x y)) <= (1 + u) * Rabs (B2R x * B2R y) + half_least).
  { intros x y Fx Fy B. pose proof (Rabs_pos (B2R x * B2R y)) as P. pose proof (Bmult_correct 53 1024 Hprec Hmax mode_NE x y) as C. rewrite Rlt_bool_true in C by (apply rnd_no_overflow; nra).
    destruct C as (C1 & C2 & _). rewrite Fx, Fy in C2. split; [exact C2|]. rewrite C1. destruct (rnd_any (B2R x * B2R y)) as (e & h & He & Hh & ->).
    eapply Rle_trans; [apply Rabs_triang|]. rewrite Rabs_mult. apply Rplus_le_compat; [|exact Hh]. rewrite Rmult_comm. apply Rmult_le_compat_r; [exact P|].
    eapply Rle_trans; [apply Rabs_triang|]. rewrite Rabs_R1. lra. }
  pose proof (Rabs_pos (B2R a * B2R b)) as P1. pose proof (Rabs_pos (B2R c * B2R d)) as P2.
  destruct (G a b Fa Fb ltac:(nra)) as [F1 B1]. destruct (G c d Fc Fd ltac:(nra)) as [F2 B2].
  pose proof (Bminus_correct 53 1024 Hprec Hmax mode_NE _ _ F1 F2) as D. rewrite Rlt_bool_true in D; [apply D|]. apply rnd_no_overflow. unfold Rminus.
  eapply Rle_trans; [apply Rabs_triang|]. rewrite Rabs_Ropp. lra.
Qed.
Lemma sub_bin : binary_exact never Rb (sub double_ops) (Bminus mode_NE).
Proof. intros x y a b -> ->. apply ret_ok, dsub_equiv. Qed.
Lemma cross_close x y v w : seq_of R_double x 3 v -> seq_of R_double y 3 w -> exists z, cross double_ops x y = Ok z /\
  seq_of minor_close z 3 (fun i => (cross_at Rminus Rmult v w i, cross_at (fun a b => Rabs a + Rabs b) Rmult v w i)).
Proof.
  assert (Bins : forall x v, seq_of R_double x 3 v -> exists b, seq_of Rb x 3 b /\ forall i, (i < 3)%nat -> is_finite (b i) = true /\ B2R (b i) = v i).
  { intros x0 v0 [L H]. exists (fun i => bin_of (nth i x0 S754_nan)). split.
    - rewrite <- L. apply seq_bin. apply Forall_forall. intros d Hd. apply In_nth_error in Hd as [i Hi].
      assert (Li : (i < 3)%nat) by (rewrite <- L; apply nth_error_Some; congruence). destruct (H i Li) as (e & E & D & _). congruence.
    - intros i Hi. destruct (H i Hi) as (d & E & Hd). rewrite (nth_error_nth _ _ _ E). destruct (R_double_bin d _ Hd) as (b & -> & F & Eb).
      assert (bin_of (B2SF b) = b) as -> by (apply B2SF_inj, bin_of_ok, double_bin). auto. }
  intros Hx Hy. destruct (Bins x v Hx) as (p & Bp & Fp). destruct (Bins y w Hy) as (q & Bq & Fq).
  destruct (ret_False _ _ (cross_ok double_ops never Rb (Bminus mode_NE) (Bmult mode_NE) sub_bin mul_bin x y p q Bp Bq)) as (z & E & L & Hz).
  exists z. split; [exact E|]. split; [exact L|]. intros i Hi. destruct (Hz i Hi) as (d & Ed & Hd). exists d. split; [exact Ed|]. red in Hd. subst d.
  split; [apply double_bin|].
  pose proof (proj2 (Fp 0%nat ltac:(lia))) as P0. pose proof (proj2 (Fp 1%nat ltac:(lia))) as P1. pose proof (proj2 (Fp 2%nat ltac:(lia))) as P2.
  pose proof (proj2 (Fq 0%nat ltac:(lia))) as Q0. pose proof (proj2 (Fq 1%nat ltac:(lia))) as Q1. pose proof (proj2 (Fq 2%nat ltac:(lia))) as Q2.
  destruct i as [|[|i]]; unfold cross_at in *; rewrite <- ?P0, <- ?P1, <- ?P2, <- ?Q0, <- ?Q1, <- ?Q2;
    (split; [intros F; apply finite_equiv in F; rewrite dR_bin; apply (fminor_error _ _ _ _ F)|intros B; apply finite_equiv; apply fminor_small; [| | | |exact B]; (apply Fp || apply Fq); lia]).
Qed.
