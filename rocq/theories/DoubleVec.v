(** dot, norm and unit_vector of Vec<double>: error bounds. *)
From Coq Require Import Reals Qreals QArith Qabs Lra Lia SpecFloat.
From Flocq Require Import Core BinarySingleNaN Relative Plus_error.
From Verif Require Import Base IntModel IntBasics FracModel FracSpec CommonModel CommonSpec CommonProofs ElemModel ElemSpec ElemProofs VecModel VecProofs
  DoubleModel DoubleSpec DoubleProofs.
#[local] Existing Instances Hprec Hmax Vexp.
Local Open Scope R_scope.

Definition bin_of (d : spec_float) : bin :=
  match Bool.bool_dec (valid_binary 53 1024 d) true with left H => SF2B d H | right _ => B754_nan end.
Lemma bin_of_ok d : double d -> B2SF (bin_of d) = d.
Proof. intros H. unfold bin_of. destruct (Bool.bool_dec _ _) as [E|E]; [apply B2SF_SF2B|contradiction]. Qed.
Definition Rb (d : spec_float) (b : bin) : Prop := d = B2SF b.
Lemma seq_bin x : Forall double x -> seq_of Rb x (length x) (fun i => bin_of (nth i x S754_nan)).
Proof.
  intros H. split; auto. intros i Hi. exists (nth i x S754_nan). split; [apply nth_error_nth'; auto|]. unfold Rb. symmetry. apply bin_of_ok.
  rewrite Forall_forall in H. apply H, nth_In, Hi.
Qed.
Lemma elem_bin x i : Forall double x -> (i < length x)%nat -> elem x i = B2R (bin_of (nth i x S754_nan)).
Proof. intros H Hi. unfold elem. rewrite <- dR_bin, bin_of_ok; auto. rewrite Forall_forall in H. apply H, nth_In, Hi. Qed.

Definition zero : bin := B754_zero false.
Definition fdot (n : nat) (v w : nat -> bin) : bin := sum_to zero (Bplus mode_NE) n (fun i => Bmult mode_NE (v i) (w i)).
Lemma addA_bin : assign_exact never Rb Rb Rb (addA double_ops) (Bplus mode_NE).
Proof. split; [intros x y a b -> ->|intros x a -> _]; apply ret_ok, add_equiv. Qed.
Lemma mul_bin : binary_exact never Rb (mul double_ops) (Bmult mode_NE).
Proof. intros x y a b -> ->. apply ret_ok, mul_equiv. Qed.
Lemma dot_bin x y n v w : seq_of Rb x n v -> seq_of Rb y n w -> dot double_ops x y = Ok (B2SF (fdot n v w)).
Proof.
  intros Hx Hy. destruct (ret_False _ _ (dot_ok double_ops never Rb zero (Bplus mode_NE) (Bmult mode_NE) eq_refl addA_bin mul_bin x y n v w Hx Hy)) as (d & E & Hd).
  exact (eq_trans E (f_equal Ok Hd)).
Qed.

(** *** Finite results come from finite arguments, rounded *)
Lemma finite_mult (x y : bin) : is_finite (Bmult mode_NE x y) = true ->
  is_finite x = true /\ is_finite y = true /\ B2R (Bmult mode_NE x y) = rnd (B2R x * B2R y).
Proof.
  intros F. pose proof (Bmult_correct 53 1024 Hprec Hmax mode_NE x y) as C. destruct (Rlt_bool _ _).
  - destruct C as (C1 & C2 & _). rewrite C2 in F. apply andb_prop in F as [F1 F2]. auto.
  - exfalso. destruct (Bmult mode_NE x y); try discriminate F; cbn [B2SF] in C; discriminate C.
Qed.
Lemma finite_plus (x y : bin) : is_finite (Bplus mode_NE x y) = true ->
  is_finite x = true /\ is_finite y = true /\ B2R (Bplus mode_NE x y) = rnd (B2R x + B2R y).
Proof.
  intros F. assert (G : is_finite x = true /\ is_finite y = true).
  { destruct x as [sx|sx| |sx mx ex Bx], y as [sy|sy| |sy my ey By]; try (split; reflexivity); try discriminate F; cbn in F; destruct (Bool.eqb _ _) in F; discriminate F. }
  destruct G as [Fx Fy]. split; [exact Fx|]. split; [exact Fy|].
  pose proof (Bplus_correct 53 1024 Hprec Hmax mode_NE x y Fx Fy) as C. destruct (Rlt_bool _ _); [apply C|].
  destruct C as [C _]. destruct (Bplus mode_NE x y); try discriminate F; cbn [B2SF] in C; discriminate C.
Qed.
Lemma fexp_FLT : fexp = FLT_exp (-1074) 53.
Proof. reflexivity. Qed.
Local Notation u := unit_roundoff.
Lemma u_val : u_ro radix2 53 = u.
Proof. unfold u_ro, unit_roundoff. change (bpow radix2 (- (53) + 1)) with (/ 4503599627370496). lra. Qed.
Lemma u_pos : 0 < u < 1.
Proof. unfold unit_roundoff. lra. Qed.
Lemma u_div : u_ro radix2 53 / (1 + u_ro radix2 53) <= u.
Proof.
  rewrite u_val. pose proof u_pos. apply Rmult_le_reg_r with (1 + u); [lra|]. unfold Rdiv. rewrite Rmult_assoc, Rinv_l by lra. nra.
Qed.
Lemma half_least_val : / 2 * bpow radix2 (-1074) = half_least.
Proof. unfold half_least. rewrite <- (bpow_powerRZ radix2). change (-1075)%Z with (-1 + -1074)%Z. rewrite bpow_plus. reflexivity. Qed.
Lemma half_least_pos : 0 < half_least.
Proof. rewrite <- half_least_val. pose proof (bpow_gt_0 radix2 (-1074)). lra. Qed.
Lemma rnd_plus (x y : bin) : exists e, Rabs e <= u /\ rnd (B2R x + B2R y) = (B2R x + B2R y) * (1 + e).
Proof.
  destruct (FLT_plus_error_N_ex radix2 (-1074) 53 (fun z => negb (Z.even z)) (B2R x) (B2R y)) as (e & He & E); try apply generic_format_B2R.
  exists e. split; [eapply Rle_trans; [exact He|apply u_div]|exact E].
Qed.
Lemma rnd_any r : exists e h, Rabs e <= u /\ Rabs h <= half_least /\ rnd r = r * (1 + e) + h.
Proof.
  destruct (relative_error_N_FLT'_ex radix2 (-1074) 53 Hprec (fun z => negb (Z.even z)) r) as (e & h & He & Hh & _ & E).
  exists e, h. split; [eapply Rle_trans; [exact He|apply u_div]|]. rewrite half_least_val in Hh. split; [exact Hh|exact E].
Qed.

(** *** The error of dot *)
Lemma Rsum_abs n f : Rabs (Rsum n f) <= Rsum n (fun i => Rabs (f i)).
Proof.
  induction n as [|n IH]; cbn [Rsum]; [rewrite Rabs_R0; lra|]. eapply Rle_trans; [apply Rabs_triang|]. lra.
Qed.
Lemma Rsum_nonneg n f : (forall i, (i < n)%nat -> 0 <= f i) -> 0 <= Rsum n f.
Proof. induction n as [|n IH]; intros H; cbn [Rsum]; [lra|]. specialize (IH ltac:(auto)). specialize (H n ltac:(auto)). lra. Qed.
Lemma Rsum_ext n f g : (forall i, (i < n)%nat -> f i = g i) -> Rsum n f = Rsum n g.
Proof. induction n as [|n IH]; intros H; cbn [Rsum]; [reflexivity|]. rewrite IH, H by auto. reflexivity. Qed.
Lemma pow_ge_1 k : 1 <= (1 + u) ^ k.
Proof. apply pow_R1_Rle. pose proof u_pos. lra. Qed.
Lemma fdot_error n v w : is_finite (fdot n v w) = true ->
  (forall i, (i < n)%nat -> is_finite (v i) = true /\ is_finite (w i) = true) /\
  Rabs (B2R (fdot n v w) - Rsum n (fun i => B2R (v i) * B2R (w i))) <=
    ((1 + u) ^ S n - 1) * Rsum n (fun i => Rabs (B2R (v i) * B2R (w i))) + INR n * (1 + u) ^ n * half_least.
Proof.
  induction n as [|n IH]; intros F.
  - split; [intros i Hi; lia|]. cbn [Rsum]. change (B2R (fdot 0 v w)) with 0. rewrite Rminus_0_r, Rabs_R0. cbn. lra.
  - change (fdot (S n) v w) with (Bplus mode_NE (fdot n v w) (Bmult mode_NE (v n) (w n))) in *.
    destruct (finite_plus _ _ F) as (F1 & F2 & E). destruct (finite_mult _ _ F2) as (Fv & Fw & Em). destruct (IH F1) as [IH1 IH2].
    split. { intros i Hi. destruct (Nat.eq_dec i n) as [->|N]; [auto|apply IH1; lia]. }
    rewrite E. destruct (rnd_plus (fdot n v w) (Bmult mode_NE (v n) (w n))) as (e & He & ->). rewrite Em.
    destruct (rnd_any (B2R (v n) * B2R (w n))) as (d & h & Hd & Hh & ->). cbn [Rsum].
    set (s := B2R (fdot n v w)) in *. set (p := B2R (v n) * B2R (w n)). set (S := Rsum n _) in *. set (A := Rsum n (fun i => Rabs _)) in *.
    assert (HS : Rabs S <= A) by apply Rsum_abs. pose proof u_pos as U. pose proof half_least_pos as Hl.
    replace ((s + (p * (1 + d) + h)) * (1 + e) - (S + p)) with ((s - S) * (1 + e) + S * e + p * (d + e + d * e) + h * (1 + e)) by ring.
    assert (A0 : 0 <= A) by (apply Rsum_nonneg; intros; apply Rabs_pos).
    assert (B1 : Rabs (1 + e) <= 1 + u). { eapply Rle_trans; [apply Rabs_triang|]. rewrite Rabs_R1. lra. }
    assert (B2 : Rabs (d + e + d * e) <= (1 + u) * (1 + u) - 1).
    { eapply Rle_trans; [apply Rabs_triang|]. eapply Rle_trans; [apply Rplus_le_compat_r, Rabs_triang|]. rewrite Rabs_mult.
      assert (Rabs d * Rabs e <= u * u) by (apply Rmult_le_compat; try apply Rabs_pos; auto). lra. }
    assert (T1 : Rabs ((s - S) * (1 + e)) <= (((1 + u) ^ Datatypes.S n - 1) * A + INR n * (1 + u) ^ n * half_least) * (1 + u)).
    { rewrite Rabs_mult. apply Rmult_le_compat; try apply Rabs_pos; auto. }
    assert (T2 : Rabs (S * e) <= A * u) by (rewrite Rabs_mult; apply Rmult_le_compat; try apply Rabs_pos; auto).
    assert (T3 : Rabs (p * (d + e + d * e)) <= Rabs p * ((1 + u) * (1 + u) - 1)) by (rewrite Rabs_mult; apply Rmult_le_compat_l; [apply Rabs_pos|auto]).
    assert (T4 : Rabs (h * (1 + e)) <= half_least * (1 + u)) by (rewrite Rabs_mult; apply Rmult_le_compat; try apply Rabs_pos; auto).
    assert (G : (1 + u) * (1 + u) <= (1 + u) ^ Datatypes.S (Datatypes.S n)) by (cbn [pow]; pose proof (pow_ge_1 n); nra).
    assert (G2 : half_least * (1 + u) <= half_least * (1 + u) ^ Datatypes.S n) by (apply Rmult_le_compat_l; [lra|]; cbn [pow]; pose proof (pow_ge_1 n); nra).
    assert (G3 : Rabs p * ((1 + u) * (1 + u) - 1) <= Rabs p * ((1 + u) ^ Datatypes.S (Datatypes.S n) - 1)) by (apply Rmult_le_compat_l; [apply Rabs_pos|lra]).
    eapply Rle_trans; [eapply Rle_trans; [apply Rabs_triang|]; apply Rplus_le_compat_r; eapply Rle_trans; [apply Rabs_triang|]; apply Rplus_le_compat_r; apply Rabs_triang|].
    rewrite S_INR. cbn [pow] in *. nra.
Qed.

(** *** Sums of squares: never NaN, never negative *)
Definition nonneg (b : bin) : Prop := is_nan b = false /\ Bsign b = false.
Lemma finite_not_nan (b : bin) : is_finite b = true -> is_nan b = false.
Proof. destruct b; auto; discriminate. Qed.
Lemma square_nonneg (x : bin) : is_nan x = false -> nonneg (Bmult mode_NE x x).
Proof.
  intros Hx. destruct x as [s|s| |s m e Hb]; try discriminate; try (split; [reflexivity|destruct s; reflexivity]).
  pose proof (Bmult_correct 53 1024 Hprec Hmax mode_NE (B754_finite s m e Hb) (B754_finite s m e Hb)) as C. destruct (Rlt_bool _ _).
  - destruct C as (_ & F & C). apply finite_not_nan in F. split; [exact F|]. rewrite C by exact F. apply xorb_nilpotent.
  - split; destruct (Bmult mode_NE _ _) as [s'|s'| |s' m' e' H']; cbn [B2SF Bsign is_nan] in *; try reflexivity; try discriminate; rewrite xorb_nilpotent in C; cbn in C; congruence.
Qed.
Lemma plus_nonneg (x y : bin) : nonneg x -> nonneg y -> nonneg (Bplus mode_NE x y).
Proof.
  intros [Nx Sx] [Ny Sy]. destruct (is_finite x && is_finite y)%bool eqn:F.
  - apply andb_prop in F as [Fx Fy]. pose proof (Bplus_correct 53 1024 Hprec Hmax mode_NE x y Fx Fy) as C. destruct (Rlt_bool _ _).
    + destruct C as (_ & F & C). split; [apply finite_not_nan, F|]. rewrite C, Sx, Sy.
      assert (P : forall b : bin, Bsign b = false -> 0 <= B2R b).
      { intros b Hb. destruct b as [s|s| |s m e H]; cbn [B2R]; try lra. cbn [Bsign] in Hb. subst s. apply F2R_ge_0. cbn. lia. }
      pose proof (P x Sx). pose proof (P y Sy). destruct (Rcompare_spec (B2R x + B2R y) 0); [lra|reflexivity|reflexivity].
    + destruct C as [C _]. rewrite Sx in C. cbn in C. split; destruct (Bplus mode_NE x y); cbn [B2SF is_nan Bsign] in *; try reflexivity; discriminate || congruence.
  - destruct x as [sx|sx| |sx mx ex Bx], y as [sy|sy| |sy my ey By]; try discriminate; cbn [Bsign] in *; subst; split; reflexivity.
Qed.
Lemma fdot_nonneg n v : (forall i, (i < n)%nat -> is_nan (v i) = false) -> nonneg (fdot n v v).
Proof.
  intros H. unfold fdot. induction n as [|n IH]; [split; reflexivity|]. cbn [sum_to]. apply plus_nonneg; [apply IH; auto|]. apply square_nonneg, H. auto.
Qed.
Lemma sqrt_nonneg (x : bin) : nonneg x -> nonneg (Bsqrt mode_NE x).
Proof.
  intros [Nx Sx]. destruct (Bsqrt_correct 53 1024 Hprec Hmax mode_NE x) as (_ & C2 & C3). destruct x as [s|s| |s m e Hb]; try discriminate; cbn [Bsign] in Sx; subst s; try (split; reflexivity).
  apply finite_not_nan in C2. split; [exact C2|apply C3, C2].
Qed.
Lemma nan_plus_l (y : bin) : Bplus mode_NE B754_nan y = B754_nan.
Proof. reflexivity. Qed.
Lemma fdot_nan n v : (exists i, (i < n)%nat /\ is_nan (v i) = true) -> fdot n v v = B754_nan.
Proof.
  intros (i & Hi & Ni). unfold fdot. induction n as [|n IH]; [lia|]. cbn [sum_to]. destruct (Nat.eq_dec i n) as [->|N].
  - destruct (v n); try discriminate. destruct (sum_to _ _ _ _); reflexivity.
  - rewrite IH by lia. reflexivity.
Qed.
Lemma norm_bin x n v : seq_of Rb x n v -> norm_double x = Ok (B2SF (Bsqrt mode_NE (fdot n v v))).
Proof. intros Hx. unfold norm_double, norm. rewrite (dot_bin x x n v v Hx Hx). cbn [bind]. rewrite sqrt_equiv. reflexivity. Qed.

(** *** The error of norm, squared *)
Lemma nonneg_R (b : bin) : Bsign b = false -> 0 <= B2R b.
Proof. intros Hb. destruct b as [s|s| |s m e H]; cbn [B2R]; try lra. cbn [Bsign] in Hb. subst s. apply F2R_ge_0. cbn. lia. Qed.
Lemma least_bin (b : bin) : 0 < B2R b -> bpow radix2 (-1074) <= B2R b.
Proof.
  intros P. apply (generic_format_ge_bpow radix2 fexp (-1074)); [|exact P|apply generic_format_B2R].
  intros e. rewrite fexp_FLT. unfold FLT_exp. lia.
Qed.
Lemma rnd_sqrt (s : bin) : is_finite s = true -> Bsign s = false -> exists e, Rabs e <= u /\ rnd (sqrt (B2R s)) = sqrt (B2R s) * (1 + e).
Proof.
  intros F S. pose proof (nonneg_R s S) as P. destruct (Req_dec (B2R s) 0) as [Z|Z].
  - exists 0. rewrite Rabs_R0. split; [left; apply u_pos|]. rewrite Z, sqrt_0, round_0 by auto with typeclass_instances. ring.
  - destruct (relative_error_N_FLT_ex radix2 (-1074) 53 Hprec (fun z => negb (Z.even z)) (sqrt (B2R s))) as (e & He & E).
    + rewrite Rabs_pos_eq by apply sqrt_pos. assert (L : bpow radix2 (-1074) <= B2R s) by (apply least_bin; lra).
      apply Rle_trans with (sqrt (bpow radix2 (-1074))); [|apply sqrt_le_1_alt, L].
      change (-1074)%Z with (2 * -537)%Z at 2. rewrite sqrt_bpow. apply bpow_le. lia.
    + exists e. split; [|exact E]. pose proof u_val as U. unfold u_ro in U. rewrite <- U. exact He.
Qed.
Lemma norm_error n v : is_finite (fdot n v v) = true -> let r := B2R (Bsqrt mode_NE (fdot n v v)) in let S := Rsum n (fun i => B2R (v i) * B2R (v i)) in
  Rabs (r * r - S) <= ((1 + u) ^ (n + 3) - 1) * S + INR n * (1 + u) ^ (n + 2) * half_least.
Proof.
  intros F r S. destruct (fdot_error n v v F) as [Fv B].
  assert (EA : Rsum n (fun i => Rabs (B2R (v i) * B2R (v i))) = S) by (apply Rsum_ext; intros i Hi; apply Rabs_pos_eq; nra). rewrite EA in B.
  assert (S0 : 0 <= S) by (apply Rsum_nonneg; intros; nra).
  assert (Nn : Bsign (fdot n v v) = false) by (apply fdot_nonneg; intros i Hi; apply finite_not_nan, Fv, Hi).
  destruct (rnd_sqrt _ F Nn) as (e & He & E). destruct (Bsqrt_correct 53 1024 Hprec Hmax mode_NE (fdot n v v)) as (C1 & _).
  unfold r. rewrite C1. change (round_mode mode_NE) with (Znearest (fun x => negb (Z.even x))) in *. rewrite E. set (s := B2R (fdot n v v)) in *. fold S in B.
  assert (s0 : 0 <= s) by (apply nonneg_R, Nn).
  replace (sqrt s * (1 + e) * (sqrt s * (1 + e)) - S) with ((s - S) * ((1 + e) * (1 + e)) + S * ((1 + e) * (1 + e) - 1)) by (rewrite <- (sqrt_def s s0) at 1; ring).
  pose proof u_pos as U. pose proof half_least_pos as Hl.
  assert (B1 : Rabs (1 + e) <= 1 + u). { eapply Rle_trans; [apply Rabs_triang|]. rewrite Rabs_R1. lra. }
  assert (B2 : Rabs ((1 + e) * (1 + e)) <= (1 + u) * (1 + u)). { rewrite Rabs_mult. apply Rmult_le_compat; try apply Rabs_pos; auto. }
  assert (B3 : Rabs ((1 + e) * (1 + e) - 1) <= (1 + u) * (1 + u) - 1).
  { replace ((1 + e) * (1 + e) - 1) with (2 * e + e * e) by ring. eapply Rle_trans; [apply Rabs_triang|]. rewrite !Rabs_mult, (Rabs_pos_eq 2) by lra.
    assert (Rabs e * Rabs e <= u * u) by (apply Rmult_le_compat; try apply Rabs_pos; auto). lra. }
  assert (T1 : Rabs ((s - S) * ((1 + e) * (1 + e))) <= (((1 + u) ^ Datatypes.S n - 1) * S + INR n * (1 + u) ^ n * half_least) * ((1 + u) * (1 + u))).
  { rewrite Rabs_mult. apply Rmult_le_compat; try apply Rabs_pos; auto. }
  assert (T2 : Rabs (S * ((1 + e) * (1 + e) - 1)) <= S * ((1 + u) * (1 + u) - 1)).
  { rewrite Rabs_mult, (Rabs_pos_eq S) by exact S0. apply Rmult_le_compat_l; auto. }
  eapply Rle_trans; [apply Rabs_triang|].
  replace (n + 3)%nat with (Datatypes.S n + 2)%nat by lia. rewrite !pow_add. change ((1 + u) ^ 2) with ((1 + u) * ((1 + u) * 1)). rewrite Rmult_1_r. nra.
Qed.

(** *** sqrt(x * x) is not less than |x| *)
Lemma sqrt_square_ge r : generic_format radix2 fexp r -> bpow radix2 (-511) <= r -> r <= rnd (sqrt (rnd (r * r))).
Proof.
  intros Fr Hx. assert (P : 0 < r) by (eapply Rlt_le_trans; [apply bpow_gt_0|exact Hx]).
  set (e := mag radix2 r : Z). assert (He : bpow radix2 (e - 1) <= r < bpow radix2 e).
  { unfold e. destruct (mag radix2 r) as [e' H']. cbn. rewrite <- (Rabs_pos_eq r) by lra. apply H'. lra. }
  assert (E510 : (-510 <= e)%Z). { assert (-511 < e)%Z; [|lia]. apply (lt_bpow radix2). lra. }
  destruct (Req_dec r (bpow radix2 (e - 1))) as [Eq|Ne].
  - rewrite Eq, <- bpow_plus, (rnd_format (bpow radix2 (e - 1 + (e - 1)))).
    + replace (e - 1 + (e - 1))%Z with (2 * (e - 1))%Z by ring. rewrite sqrt_bpow, rnd_format; [lra|]. rewrite <- Eq. exact Fr.
    + apply generic_format_bpow. rewrite fexp_FLT. unfold FLT_exp. lia.
  - apply (round_N_ge_midp radix2 fexp); [exact Fr|].
    rewrite pred_eq_pos by lra. unfold pred_pos. fold e. rewrite Req_bool_false by exact Ne.
    rewrite ulp_neq_0 by lra. unfold cexp. fold e.
    assert (Ce : fexp e = (e - 53)%Z) by (rewrite fexp_FLT; unfold FLT_exp; lia). rewrite Ce.
    set (h := bpow radix2 (e - 53)). assert (Hh : 0 < h) by apply bpow_gt_0.
    assert (E1 : bpow radix2 (e - 1) = IZR (2 ^ 52) * h). { unfold h. change (IZR (2 ^ 52)) with (bpow radix2 52). rewrite <- bpow_plus. f_equal. ring. }
    assert (Gap : bpow radix2 (e - 1) + h <= r).
    { assert (S1 : succ radix2 fexp (bpow radix2 (e - 1)) <= r).
      { apply succ_le_lt; auto with typeclass_instances; [|lra]. apply generic_format_bpow. rewrite fexp_FLT. unfold FLT_exp. lia. }
      rewrite succ_eq_pos in S1 by apply bpow_ge_0. rewrite ulp_bpow in S1. replace (e - 1 + 1)%Z with e in S1 by ring. rewrite Ce in S1. exact S1. }
    assert (Er : Rabs (rnd (r * r) - r * r) <= / 2 * bpow radix2 (2 * e - 53)).
    { eapply Rle_trans; [apply error_le_half_ulp; auto with typeclass_instances|]. apply Rmult_le_compat_l; [lra|].
      rewrite ulp_neq_0 by nra. apply bpow_le. unfold cexp.
      assert (M : (mag radix2 (r * r) <= 2 * e)%Z).
      { apply mag_le_bpow; [nra|]. rewrite Rabs_pos_eq by nra. replace (2 * e)%Z with (e + e)%Z by ring. rewrite bpow_plus. nra. }
      rewrite fexp_FLT. unfold FLT_exp. lia. }
    assert (E2 : bpow radix2 (2 * e - 53) = IZR (2 ^ 53) * (h * h)).
    { unfold h. change (IZR (2 ^ 53)) with (bpow radix2 53). rewrite <- !bpow_plus. f_equal. ring. }
    rewrite E2 in Er. rewrite E1 in Gap. change (IZR (2 ^ 52)) with 4503599627370496 in Gap. change (IZR (2 ^ 53)) with 9007199254740992 in Er.
    apply Rabs_le_inv in Er. replace ((r + (r - h)) / 2) with (r - h / 2) by field.
    rewrite <- (sqrt_square (r - h / 2)) by nra. apply sqrt_lt_1_alt. split; [nra|]. nra.
Qed.
Lemma rnd_le x y : x <= y -> rnd x <= rnd y.
Proof. intros H. apply round_le; auto with typeclass_instances. Qed.
Lemma fdot_ge n v j : is_finite (fdot n v v) = true -> (j < n)%nat -> rnd (B2R (v j) * B2R (v j)) <= B2R (fdot n v v).
Proof.
  intros F Hj. revert F. unfold fdot. induction n as [|n IH]; [lia|]. cbn [sum_to]. intros F.
  destruct (finite_plus _ _ F) as (F1 & F2 & E). rewrite E. clear E. destruct (finite_mult _ _ F2) as (_ & _ & E).
  assert (Nv : forall i, (i < n)%nat -> is_nan (v i) = false).
  { intros i Hi. destruct (fdot_error n v v F1) as [Fv _]. apply finite_not_nan, Fv, Hi. }
  pose proof (nonneg_R _ (proj2 (fdot_nonneg n v Nv))) as P1. unfold fdot in P1.
  assert (P2 : 0 <= B2R (Bmult mode_NE (v n) (v n))).
  { rewrite E. apply round_ge_generic; auto with typeclass_instances; [apply generic_format_0|nra]. }
  destruct (Nat.eq_dec j n) as [->|Nj].
  - rewrite <- E. apply round_ge_generic; auto with typeclass_instances; [apply generic_format_B2R|lra].
  - eapply Rle_trans; [apply IH; [lia|exact F1]|]. apply round_ge_generic; auto with typeclass_instances; [apply generic_format_B2R|lra].
Qed.
Lemma norm_ge n v j : is_finite (fdot n v v) = true -> (j < n)%nat -> bpow radix2 (-511) <= Rabs (B2R (v j)) ->
  forall k, (k < n)%nat -> Rabs (B2R (v k)) <= B2R (Bsqrt mode_NE (fdot n v v)).
Proof.
  intros F Hj Lj.
  assert (H : forall k, (k < n)%nat -> bpow radix2 (-511) <= Rabs (B2R (v k)) -> Rabs (B2R (v k)) <= B2R (Bsqrt mode_NE (fdot n v v))).
  { intros k Hk Lk. destruct (Bsqrt_correct 53 1024 Hprec Hmax mode_NE (fdot n v v)) as (-> & _).
    eapply Rle_trans; [apply sqrt_square_ge; [apply generic_format_abs, generic_format_B2R|exact Lk]|].
    apply rnd_le, sqrt_le_1_alt. rewrite <- Rabs_mult, Rabs_pos_eq by nra. apply fdot_ge; auto. }
  intros k Hk. destruct (Rle_lt_dec (bpow radix2 (-511)) (Rabs (B2R (v k)))) as [L|L]; [auto|]. specialize (H j Hj Lj). lra.
Qed.
Lemma div_le_1 (x y : bin) : is_finite x = true -> 0 < B2R y -> Rabs (B2R x) <= B2R y ->
  is_finite (Bdiv mode_NE x y) = true /\ B2R (Bdiv mode_NE x y) = rnd (B2R x / B2R y) /\ Rabs (B2R (Bdiv mode_NE x y)) <= 1.
Proof.
  intros Fx Py L. assert (Q1 : Rabs (B2R x / B2R y) <= 1).
  { unfold Rdiv. rewrite Rabs_mult, Rabs_inv, (Rabs_pos_eq (B2R y)) by lra. apply Rmult_le_reg_r with (B2R y); [lra|]. rewrite Rmult_assoc, Rinv_l by lra. lra. }
  assert (G1 : generic_format radix2 fexp 1) by (apply (format_int 1); lia).
  assert (R1 : Rabs (rnd (B2R x / B2R y)) <= 1) by (apply abs_round_le_generic; auto with typeclass_instances).
  pose proof (Bdiv_correct 53 1024 Hprec Hmax mode_NE x y ltac:(lra)) as C. rewrite Rlt_bool_true in C.
  - destruct C as (E & F & _). rewrite F, E. split; [exact Fx|]. split; [reflexivity|exact R1].
  - eapply Rle_lt_trans; [exact R1|]. apply (bpow_lt radix2 0). lia.
Qed.
Lemma copy_bin x n v : seq_of Rb x n v -> exists y, Vec_of_vec Ok x = Ok y /\ seq_of Rb y n v.
Proof.
  intros Hx. apply ret_False. assert (Lx : length x = n) by apply Hx. unfold Vec_of_vec. rewrite Lx.
  eapply ret_mono; [apply (push_all_ok Ok never (fun i e => Rb e (v i)) x n n); [lia|lia|]|].
  - intros i e Hi E. apply ret_ok. destruct Hx as [_ Hx]. destruct (Hx i Hi) as (e' & E' & He). congruence.
  - intros r Hr. exact Hr.
Qed.
Lemma unit_bin x n v : seq_of Rb x n v -> let s := Bsqrt mode_NE (fdot n v v) in
  exists y, unit_double x = Ok y /\ seq_of Rb y n (fun i => Bdiv mode_NE (v i) s).
Proof.
  intros Hx s. unfold unit_double, unit_vector. pose proof (norm_bin x n v Hx) as N. unfold norm_double in N. rewrite N. cbn [bind].
  destruct (copy_bin x n v Hx) as (y & -> & Hy). cbn [bind]. apply ret_False. unfold V_div. apply ret_final.
  apply (scale_val_pt never Rb Rb (divA double_ops) (Bdiv mode_NE) y (B2SF s) n v s); [|exact Hy].
  intros i e Hi ->. cbn [divA double_ops rd]. apply ret_ok. unfold Rb. apply div_equiv.
Qed.

(** *** The length of a unit vector *)
Lemma pow_upper k : INR k * u <= 1 -> (1 + u) ^ k <= 1 + INR k * u + INR k * INR k * (u * u).
Proof.
  pose proof u_pos as U. induction k as [|k IH]; intros H; [cbn; lra|]. rewrite S_INR in *. pose proof (pos_INR k) as P.
  specialize (IH ltac:(nra)). cbn [pow]. assert (INR k * INR k * u <= INR k) by nra.
  assert ((1 + u) * (1 + u) ^ k <= (1 + u) * (1 + INR k * u + INR k * INR k * (u * u))) by (apply Rmult_le_compat_l; lra).
  assert (INR k * INR k * u * (u * u) <= INR k * (u * u)) by (apply Rmult_le_compat_r; nra). nra.
Qed.
Lemma Rsum_le n f g : (forall i, (i < n)%nat -> f i <= g i) -> Rsum n f <= Rsum n g.
Proof. induction n as [|n IH]; intros H; cbn [Rsum]; [lra|]. specialize (IH ltac:(auto)). specialize (H n ltac:(auto)). lra. Qed.
Lemma Rsum_ge n f j : (forall i, (i < n)%nat -> 0 <= f i) -> (j < n)%nat -> f j <= Rsum n f.
Proof.
  induction n as [|n IH]; intros H Hj; [lia|]. cbn [Rsum]. destruct (Nat.eq_dec j n) as [->|N].
  - pose proof (Rsum_nonneg n f ltac:(auto)). lra.
  - specialize (IH ltac:(auto) ltac:(lia)). specialize (H n ltac:(auto)). lra.
Qed.
Lemma Rsum_minus n f g : Rsum n f - Rsum n g = Rsum n (fun i => f i - g i).
Proof. induction n as [|n IH]; cbn [Rsum]; lra. Qed.
Lemma Rsum_linear n f a b : Rsum n (fun i => a * f i + b) = a * Rsum n f + INR n * b.
Proof. induction n as [|n IH]; [cbn; ring|]. rewrite S_INR. cbn [Rsum]. rewrite IH. ring. Qed.
Lemma half_least_u : half_least = u * (bpow radix2 (-511) * bpow radix2 (-511)).
Proof.
  rewrite <- bpow_plus. replace u with (bpow radix2 (-53)) by reflexivity. rewrite <- bpow_plus.
  unfold half_least. rewrite <- (bpow_powerRZ radix2). reflexivity.
Qed.
Lemma small_size n : INR n <= 1048576 -> let K := (1 + u) ^ (n + 3) in let e := K - 1 + INR n * K * u in
  0 <= e <= (2 * INR n + 3) * u * (1 + / 1000000000).
Proof.
  intros Hn K e. pose proof u_pos as U. pose proof (pos_INR n) as P. pose proof (pow_ge_1 (n + 3)) as G. fold K in G.
  assert (Hk : INR (n + 3) = INR n + 3) by (rewrite plus_INR; cbn; lra).
  assert (X : (INR n + 3) * u <= / 8000000000). { unfold unit_roundoff in *. apply Rmult_le_reg_r with 9007199254740992; [lra|]. rewrite Rmult_assoc, Rinv_l by lra. lra. }
  pose proof (pow_upper (n + 3)) as B. rewrite Hk in B. specialize (B ltac:(lra)). fold K in B.
  set (t := (INR n + 3) * u) in *. assert (T0 : 0 <= t) by (unfold t; nra).
  replace (1 + t + (INR n + 3) * (INR n + 3) * (u * u)) with (1 + t + t * t) in B by (unfold t; ring).
  assert (N0 : 0 <= INR n * u <= t) by (unfold t; split; nra).
  unfold e. replace (INR n * K * u) with (INR n * u * K) by ring. split; [nra|].
  assert (K - 1 <= t * (1 + / 8000000000)) by nra. assert (INR n * u * K <= INR n * u * (1 + / 4000000000)) by (apply Rmult_le_compat_l; nra).
  replace ((2 * INR n + 3) * u) with (t + INR n * u) by (unfold t; ring). nra.
Qed.
Lemma unit_length n v j : INR n <= 1048576 -> is_finite (fdot n v v) = true -> (j < n)%nat -> bpow radix2 (-511) <= Rabs (B2R (v j)) ->
  let y i := B2R (Bdiv mode_NE (v i) (Bsqrt mode_NE (fdot n v v))) in
  Rabs (Rsum n (fun i => y i * y i) - 1) <= (2 * INR n + 6) * u.
Proof.
  intros Hn F Hj Lj y. pose proof (norm_error n v F) as N. cbv zeta in N. set (s := Bsqrt mode_NE (fdot n v v)) in *. set (r := B2R s) in *.
  set (S := Rsum n (fun i => B2R (v i) * B2R (v i))) in *. destruct (fdot_error n v v F) as [Fv _].
  pose proof (norm_ge n v j F Hj Lj) as G. fold s in G. fold r in G.
  assert (Pr : 0 < r). { eapply Rlt_le_trans; [|apply (G j Hj)]. eapply Rlt_le_trans; [apply bpow_gt_0|exact Lj]. }
  assert (Sj : bpow radix2 (-511) * bpow radix2 (-511) <= S).
  { apply Rle_trans with (B2R (v j) * B2R (v j)).
    - rewrite <- (Rabs_pos_eq (B2R (v j) * B2R (v j))) by nra. rewrite Rabs_mult. pose proof (bpow_ge_0 radix2 (-511)). apply Rmult_le_compat; auto.
    - apply (Rsum_ge n (fun i => B2R (v i) * B2R (v i))); [intros; nra|exact Hj]. }
  pose proof half_least_pos as Hl. pose proof half_least_u as Hu. pose proof u_pos as U.
  assert (HS : half_least <= u * S) by (rewrite Hu; apply Rmult_le_compat_l; lra).
  assert (PS : 0 < S). { eapply Rlt_le_trans; [|exact Sj]. apply Rmult_lt_0_compat; apply bpow_gt_0. }
  pose proof (small_size n Hn) as E. cbv zeta in E. set (K := (1 + u) ^ (n + 3)) in *. set (e := K - 1 + INR n * K * u) in *.
  pose proof (pos_INR n) as Pn.
  assert (N' : Rabs (r * r - S) <= e * S).
  { eapply Rle_trans; [exact N|]. unfold e. rewrite Rmult_plus_distr_r. apply Rplus_le_compat_l. rewrite (Rmult_assoc _ u S).
    apply Rmult_le_compat; [| |apply Rmult_le_compat_l; auto|exact HS]; [apply Rmult_le_pos; auto; apply pow_le; lra|lra|].
    unfold K. apply Rle_pow; [lra|lia]. }
  assert (T : (2 * INR n + 3) * u <= / 4000000000).
  { unfold unit_roundoff in *. apply Rmult_le_reg_r with 9007199254740992; [lra|]. rewrite Rmult_assoc, Rinv_l by lra. lra. }
  assert (E2 : e <= / 2000000000) by nra.
  set (q := S / (r * r)). assert (Rr : 0 < r * r) by nra. assert (Eq : q * (r * r) = S) by (unfold q; field; lra).
  assert (Q : Rabs (q - 1) <= e * (1 + / 1000000000)).
  { apply Rmult_le_reg_r with (r * r); [exact Rr|]. rewrite <- (Rabs_pos_eq (r * r)) at 1 by lra. rewrite <- Rabs_mult.
    replace ((q - 1) * (r * r)) with (- (r * r - S)) by (rewrite <- Eq; ring). rewrite Rabs_Ropp.
    eapply Rle_trans; [exact N'|]. rewrite Rmult_assoc. apply Rmult_le_compat_l; [lra|]. apply Rabs_le_inv in N'. nra. }
  assert (Y : forall i, (i < n)%nat -> Rabs (y i * y i - B2R (v i) * B2R (v i) / (r * r)) <= (2 * u + u * u) * (B2R (v i) * B2R (v i) / (r * r)) + 4 * half_least).
  { intros i Hi. destruct (div_le_1 (v i) s (proj1 (Fv i Hi)) Pr (G i Hi)) as (_ & Ey & _). fold (y i) in Ey. fold r in Ey. rewrite Ey.
    destruct (rnd_any (B2R (v i) / r)) as (d & h & Hd & Hh & ->). set (w := B2R (v i) / r).
    assert (Ew : B2R (v i) * B2R (v i) / (r * r) = w * w) by (unfold w; field; lra). rewrite Ew.
    assert (W1 : Rabs w <= 1).
    { unfold w, Rdiv. rewrite Rabs_mult, Rabs_inv, (Rabs_pos_eq r) by lra. apply Rmult_le_reg_r with r; [lra|]. rewrite Rmult_assoc, Rinv_l by lra. specialize (G i Hi). lra. }
    replace ((w * (1 + d) + h) * (w * (1 + d) + h) - w * w) with (w * w * (2 * d + d * d) + h * (2 * (w * (1 + d)) + h)) by ring.
    eapply Rle_trans; [apply Rabs_triang|]. rewrite !Rabs_mult. rewrite <- Rabs_mult, (Rabs_pos_eq (w * w)) by nra. rewrite (Rmult_comm (w * w)).
    assert (D2 : Rabs (2 * d + d * d) <= 2 * u + u * u).
    { eapply Rle_trans; [apply Rabs_triang|]. rewrite !Rabs_mult, (Rabs_pos_eq 2) by lra.
      assert (Rabs d * Rabs d <= u * u) by (apply Rmult_le_compat; try apply Rabs_pos; auto). lra. }
    assert (W2 : Rabs (2 * (w * (1 + d)) + h) <= 4).
    { assert (half_least <= / 2). { rewrite Hu. assert (bpow radix2 (-511) <= 1) by (apply (bpow_le radix2 (-511) 0); lia). pose proof (bpow_ge_0 radix2 (-511)).
        assert (bpow radix2 (-511) * bpow radix2 (-511) <= 1) by nra. unfold unit_roundoff in *. nra. }
      eapply Rle_trans; [apply Rabs_triang|]. rewrite !Rabs_mult, (Rabs_pos_eq 2) by lra.
      assert (Rabs (1 + d) <= 1 + u). { eapply Rle_trans; [apply Rabs_triang|]. rewrite Rabs_R1. lra. }
      assert (Rabs w * Rabs (1 + d) <= 1 * (1 + u)) by (apply Rmult_le_compat; try apply Rabs_pos; auto).
      assert (u <= / 8) by (unfold unit_roundoff; lra). lra. }
    apply Rplus_le_compat; [apply Rmult_le_compat_r; [nra|exact D2]|].
    rewrite (Rmult_comm 4). apply Rmult_le_compat; try apply Rabs_pos; auto. }
  assert (Sq : Rsum n (fun i => B2R (v i) * B2R (v i) / (r * r)) = q).
  { unfold q. rewrite <- (Rplus_0_r (S / (r * r))). transitivity (Rsum n (fun i => / (r * r) * (B2R (v i) * B2R (v i)) + 0)).
    - apply Rsum_ext. intros i _. field. lra.
    - rewrite (Rsum_linear n (fun i => B2R (v i) * B2R (v i))). fold S. unfold Rdiv. ring. }
  assert (Z : Rabs (Rsum n (fun i => y i * y i) - q) <= (2 * u + u * u) * q + INR n * (4 * half_least)).
  { rewrite <- Sq at 1. rewrite Rsum_minus. eapply Rle_trans; [apply Rsum_abs|]. eapply Rle_trans; [apply Rsum_le; exact Y|].
    rewrite (Rsum_linear n (fun i => B2R (v i) * B2R (v i) / (r * r))), Sq. lra. }
  replace (Rsum n (fun i => y i * y i) - 1) with (Rsum n (fun i => y i * y i) - q + (q - 1)) by ring.
  eapply Rle_trans; [apply Rabs_triang|].
  assert (Hs : half_least <= u * / 1000000000000).
  { rewrite Hu. apply Rmult_le_compat_l; [lra|]. rewrite <- bpow_plus. apply Rle_trans with (bpow radix2 (-40)); [apply bpow_le; lia|]. change (bpow radix2 (-40)) with (/ 1099511627776). lra. }
  assert (q <= 1 + / 1000000000) by (apply Rabs_le_inv in Q; nra). assert (0 < q) by (unfold q; apply Rdiv_lt_0_compat; lra).
  assert ((2 * u + u * u) * q <= (2 * u + u * u) * (1 + / 1000000000)) by (apply Rmult_le_compat_l; nra).
  assert (INR n * (4 * half_least) <= u * / 100000).
  { apply Rle_trans with (1048576 * (4 * half_least)); [apply Rmult_le_compat_r; lra|]. lra. }
  assert (e * (1 + / 1000000000) <= (2 * INR n + 3) * u * (1 + / 400000000)).
  { destruct E as [E0 E1]. nra. }
  assert (Tn : (2 * INR n + 3) * u * / 400000000 <= u * / 100) by (rewrite (Rmult_comm (2 * INR n + 3)), Rmult_assoc; apply Rmult_le_compat_l; lra).
  assert (u * u <= u * / 1000) by (apply Rmult_le_compat_l; unfold unit_roundoff; lra). lra.
Qed.

(** *** Lists *)
Lemma is_finite_dec d : finite d \/ ~ finite d.
Proof. destruct d; cbn; auto. Qed.
Lemma nan_dec (x y : spec_float) : {x = y} + {x <> y}.
Proof. decide equality; (apply Bool.bool_dec || apply Pos.eq_dec || apply Z.eq_dec). Qed.
Lemma finite_elems x : Forall double x -> (forall i, (i < length x)%nat -> is_finite (bin_of (nth i x S754_nan)) = true) -> Forall finite x.
Proof.
  intros D H. apply Forall_forall. intros d Hd. rewrite Forall_forall in D. pose proof (D d Hd) as Dd. apply (In_nth _ _ S754_nan) in Hd as (i & Hi & E).
  specialize (H i Hi). rewrite E in H. apply finite_equiv in H. rewrite bin_of_ok in H; auto.
Qed.
Lemma nan_elem x i : Forall double x -> (i < length x)%nat -> is_nan (bin_of (nth i x S754_nan)) = true -> In S754_nan x.
Proof.
  intros D Hi H. rewrite Forall_forall in D. pose proof (nth_In x S754_nan Hi) as I. pose proof (bin_of_ok _ (D _ I)) as E.
  destruct (bin_of _); try discriminate. cbn in E. rewrite E. exact I.
Qed.
Lemma bin_of_nan : is_nan (bin_of S754_nan) = true.
Proof. pose proof (bin_of_ok S754_nan eq_refl) as E. destruct (bin_of _); try discriminate. reflexivity. Qed.
Lemma finite_sqrt (b : bin) : is_finite (Bsqrt mode_NE b) = true -> is_finite b = true.
Proof. destruct b as [s|[]| |s m e H]; cbn; auto. Qed.
Lemma Ok_inj {A} (a b : A) : Ok a = Ok b -> a = b.
Proof. intros H. injection H. auto. Qed.
