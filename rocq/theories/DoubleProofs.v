(** The double operations of DoubleModel are Flocq's; conversions between int and
    double; the square root of an int. *)
From Coq Require Import Reals Qreals QArith Qabs Lra Lia SpecFloat.
From Flocq Require Import Core BinarySingleNaN.
From Verif Require Import Base IntModel IntBasics FracModel FracSpec CommonModel CommonSpec CommonProofs ElemModel ElemSpec ElemProofs VecModel VecProofs DoubleModel DoubleSpec Int32Spec Int32Proofs.
Local Open Scope Z_scope.

#[local] Existing Instances Hprec Hmax Vexp.

Lemma mul_equiv (x y : bin) : SFmul 53 1024 (B2SF x) (B2SF y) = B2SF (Bmult mode_NE x y).
Proof.
  destruct x as [sx|sx| |sx mx ex Bx], y as [sy|sy| |sy my ey By]; try reflexivity. cbn. rewrite B2SF_SF2B. apply binary_round_aux_equiv.
Qed.
Lemma add_equiv (x y : bin) : SFadd 53 1024 (B2SF x) (B2SF y) = B2SF (Bplus mode_NE x y).
Proof.
  destruct x as [sx|sx| |sx mx ex Bx], y as [sy|sy| |sy my ey By]; try reflexivity; try (cbn; destruct (Bool.eqb _ _); reflexivity).
  apply binary_normalize_equiv.
Qed.
Lemma div_equiv (x y : bin) : SFdiv 53 1024 (B2SF x) (B2SF y) = B2SF (Bdiv mode_NE x y).
Proof.
  destruct x as [sx|sx| |sx mx ex Bx], y as [sy|sy| |sy my ey By]; try reflexivity. cbn. rewrite B2SF_SF2B.
  destruct (SFdiv_core_binary _ _ _ _ _ _) as [[mz ez] lz]. apply binary_round_aux_equiv.
Qed.
Lemma sqrt_equiv (x : bin) : SFsqrt 53 1024 (B2SF x) = B2SF (Bsqrt mode_NE x).
Proof.
  destruct x as [sx|sx| |sx mx ex Bx]; try (destruct sx; reflexivity); try reflexivity. destruct sx; [reflexivity|].
  cbn. rewrite B2SF_SF2B. destruct (SFsqrt_core_binary _ _ _ _) as [[mz ez] lz]. apply binary_round_aux_equiv.
Qed.
Lemma opp_equiv (x : bin) : SFopp (B2SF x) = B2SF (Bopp x).
Proof. destruct x; reflexivity. Qed.
Lemma eqb_equiv (x y : bin) : SFeqb (B2SF x) (B2SF y) = Beqb x y.
Proof. reflexivity. Qed.

(** *** The value of a double as a real number *)
Lemma dR_bin (x : bin) : dR (B2SF x) = B2R x.
Proof. apply Q2R_dval. Qed.
Lemma double_bin (x : bin) : double (B2SF x).
Proof. apply valid_binary_B2SF. Qed.

(** *** Integers *)
Lemma format_Z z e : Z.abs z <= 2 ^ 53 -> -1074 <= e <= 900 -> generic_format radix2 fexp (IZR z * bpow radix2 e).
Proof.
  intros Hz He. assert (G : forall y, Z.abs y < 2 ^ 53 -> forall e, -1074 <= e <= 970 -> generic_format radix2 fexp (IZR y * bpow radix2 e)).
  { intros y Hy e' He'. apply generic_format_F2R' with (f := Float radix2 y e'); [reflexivity|]. intros N. cbn [Fexp].
    unfold cexp. change fexp with (FLT_exp (-1074) 53). unfold FLT_exp. apply Z.max_lub; [|lia].
    assert (M : mag radix2 (F2R (Float radix2 y e')) <= 53 + e').
    { unfold F2R in *. cbn [Fnum Fexp] in *. rewrite mag_mult_bpow by (intros E; apply N; rewrite E; ring).
      apply Z.add_le_mono_r. apply mag_le_bpow; [intros E; apply N; rewrite E; ring|].
      rewrite <- abs_IZR. change (bpow radix2 53) with (IZR (2 ^ 53)). apply IZR_lt. exact Hy. }
    unfold F2R in M. cbn [Fnum Fexp] in M. lia. }
  destruct (Z.eq_dec (Z.abs z) (2 ^ 53)) as [E|N]; [|apply G; lia].
  assert (Ez : z = 2 * (Z.sgn z * 2 ^ 52)). { change (2 ^ 53) with (2 * 2 ^ 52) in E. destruct z; cbn [Z.abs Z.sgn] in *; lia. }
  rewrite Ez, mult_IZR. replace (2 * IZR (Z.sgn z * 2 ^ 52) * bpow radix2 e)%R with (IZR (Z.sgn z * 2 ^ 52) * bpow radix2 (e + 1))%R.
  - apply G; [|lia]. rewrite Z.abs_mul. assert (Z.abs (Z.sgn z) <= 1) by (destruct z; cbn; lia). change (Z.abs (2 ^ 52)) with (2 ^ 52). lia.
  - rewrite bpow_plus. change (bpow radix2 1) with 2%R. ring.
Qed.
Lemma format_int z : Z.abs z <= 2 ^ 53 -> generic_format radix2 fexp (IZR z).
Proof. intros H. rewrite <- (Rmult_1_r (IZR z)). change 1%R with (bpow radix2 0). apply format_Z; [exact H|lia]. Qed.
Lemma rnd_format r : generic_format radix2 fexp r -> rnd r = r.
Proof. apply round_generic; auto with typeclass_instances. Qed.
Lemma rnd_int z : Z.abs z <= 2 ^ 53 -> rnd (IZR z) = IZR z.
Proof. intros H. apply rnd_format, format_int, H. Qed.
Lemma below_max r : (Rabs r <= IZR (2 ^ 64))%R -> Rlt_bool (Rabs r) (bpow radix2 1024) = true.
Proof. intros H. apply Rlt_bool_true. eapply Rle_lt_trans; [exact H|]. change (IZR (2 ^ 64)) with (bpow radix2 64). apply bpow_lt. reflexivity. Qed.
(** double_of_int, exact up to 2^53 *)
Lemma of_int_exact k : Z.abs k <= 2 ^ 53 -> exists b : bin, double_of_int k = B2SF b /\ B2R b = IZR k /\ is_finite b = true /\ Bsign b = (k <? 0).
Proof.
  intros H. exists (BinarySingleNaN.binary_normalize 53 1024 Hprec Hmax mode_NE k 0 false). split; [apply binary_normalize_equiv|].
  pose proof (binary_normalize_correct 53 1024 Hprec Hmax mode_NE k 0 false) as C.
  assert (E : F2R (Float radix2 k 0) = IZR k) by (unfold F2R; cbn [Fnum Fexp]; change (bpow radix2 0) with 1%R; ring).
  rewrite E in C. cbv zeta in C. rewrite rnd_int in C by exact H. rewrite below_max in C.
  - destruct C as (C1 & C2 & C3). split; [exact C1|]. split; [exact C2|]. rewrite C3. destruct (Rcompare_spec (IZR k) 0) as [L|L|L].
    + apply lt_IZR in L. symmetry. apply Z.ltb_lt. exact L.
    + apply eq_IZR in L. subst. reflexivity.
    + apply lt_IZR in L. symmetry. apply Z.ltb_ge. lia.
  - rewrite <- abs_IZR. apply IZR_le. lia.
Qed.

(** int_of_double truncates *)
Lemma shift_div m e : e < 0 -> Zfloor (IZR m * bpow radix2 e) = m / 2 ^ (- e).
Proof.
  intros He. rewrite <- (Z.opp_involutive e) at 1. rewrite bpow_opp, <- IZR_Zpower by lia. apply Zfloor_div.
  change (Z.pow_pos 2) with (Z.pow_pos 2). apply Z.pow_nonzero; [discriminate|lia].
Qed.
Lemma int_of_double_trunc (x : bin) : is_finite x = true -> int_of_double (B2SF x) = i32 (Ztrunc (B2R x)).
Proof.
  destruct x as [s|s| |s m e Hb]; try discriminate; intros _.
  - cbn [B2SF int_of_double B2R]. change 0%R with (IZR 0). rewrite Ztrunc_IZR. reflexivity.
  - cbn [B2SF int_of_double B2R]. f_equal.
    set (a := if 0 <=? e then Zpos m * 2 ^ e else Zpos m / 2 ^ (- e)).
    assert (A : Ztrunc (F2R (Float radix2 (Zpos m) e)) = a).
    { unfold F2R. cbn [Fnum Fexp]. unfold a. destruct (Z.leb_spec 0 e) as [L|L].
      - rewrite <- IZR_Zpower, <- mult_IZR by exact L. apply Ztrunc_IZR.
      - rewrite Ztrunc_floor; [apply shift_div, L|]. apply Rmult_le_pos; [apply IZR_le; lia|apply bpow_ge_0]. }
    destruct s; cbn [cond_Zopp].
    + change (Zneg m) with (- Zpos m). rewrite F2R_Zopp, Ztrunc_opp, A. reflexivity.
    + symmetry. exact A.
Qed.

(** *** The rounded square root of an int *)
Lemma sqrt_floor d : 0 <= d -> (IZR (Z.sqrt d) <= sqrt (IZR d) < IZR (Z.sqrt d + 1))%R.
Proof.
  intros H. pose proof (Z.sqrt_spec d H) as S. pose proof (Z.sqrt_nonneg d) as N. split.
  - rewrite <- (sqrt_square (IZR (Z.sqrt d))) by (apply IZR_le, N). apply sqrt_le_1_alt. rewrite <- mult_IZR. apply IZR_le, S.
  - rewrite <- (sqrt_square (IZR (Z.sqrt d + 1))) by (apply IZR_le; lia). apply sqrt_lt_1_alt. split; [apply IZR_le, H|].
    rewrite <- mult_IZR. apply IZR_lt. unfold Z.succ in S. lia.
Qed.
Lemma rnd_sqrt_range d : 0 <= d <= INT32_MAX -> (IZR (Z.sqrt d) <= rnd (sqrt (IZR d)) < IZR (Z.sqrt d + 1))%R.
Proof.
  intros Hd. set (k := Z.sqrt d). assert (Hk : 0 <= k <= 46340).
  { split; [apply Z.sqrt_nonneg|]. change 46340 with (Z.sqrt INT32_MAX). apply Z.sqrt_le_mono, Hd. }
  destruct (sqrt_floor d (proj1 Hd)) as [S1 S2]. fold k in S1, S2. split.
  - rewrite <- (rnd_int k) by lia. apply round_le; auto with typeclass_instances.
  - set (p := (IZR (2 ^ 30 * (k + 1) - 1) * bpow radix2 (-30))%R).
    assert (Ep : p = (IZR (k + 1) - bpow radix2 (-30))%R).
    { unfold p. rewrite minus_IZR, mult_IZR. change (IZR (2 ^ 30)) with (bpow radix2 30).
      replace ((bpow radix2 30 * IZR (k + 1) - 1) * bpow radix2 (-30))%R with ((bpow radix2 30 * bpow radix2 (-30)) * IZR (k + 1) - bpow radix2 (-30))%R by ring.
      rewrite <- bpow_plus. change (bpow radix2 (30 + -30)) with 1%R. ring. }
    assert (B : bpow radix2 (-30) = (/ 1073741824)%R) by reflexivity.
    apply Rle_lt_trans with p; [|rewrite Ep, B; lra].
    rewrite <- (rnd_format p) by (apply format_Z; lia). apply round_le; auto with typeclass_instances.
    assert (P0 : (0 <= p)%R). { rewrite Ep, B. assert (1 <= IZR (k + 1))%R by (apply IZR_le; lia). lra. }
    rewrite <- (sqrt_square p) by exact P0. apply sqrt_le_1_alt.
    assert (D : d <= (k + 1) * (k + 1) - 1). { pose proof (Z.sqrt_spec d (proj1 Hd)) as S. unfold Z.succ in S. fold k in S. lia. }
    apply IZR_le in D. rewrite minus_IZR, mult_IZR in D. eapply Rle_trans; [exact D|]. rewrite Ep, B.
    assert (1 <= IZR (k + 1) <= 46341)%R by (split; apply IZR_le; lia). nra.
Qed.
Lemma sqrt_int d : 0 <= d <= INT32_MAX -> exists b : bin, SFsqrt 53 1024 (double_of_int d) = B2SF b /\
  is_finite b = true /\ Bsign b = false /\ B2R b = rnd (sqrt (IZR d)).
Proof.
  intros Hd. destruct (of_int_exact d) as (b & E & V & F & S); [unfold INT32_MAX in Hd; lia|]. rewrite E.
  exists (Bsqrt mode_NE b). split; [apply sqrt_equiv|]. destruct (Bsqrt_correct 53 1024 Hprec Hmax mode_NE b) as (C1 & C2 & C3).
  rewrite V in C1. assert (S' : Bsign b = false) by (rewrite S; apply Z.ltb_ge; lia).
  assert (Fs : is_finite (Bsqrt mode_NE b) = true). { rewrite C2. destruct b as [sb|sb| |[|] m e Hb]; try reflexivity; try discriminate. }
  split; [exact Fs|]. split; [|exact C1]. rewrite C3; [exact S'|]. destruct (Bsqrt mode_NE b); try reflexivity; discriminate.
Qed.
Lemma isqrt_exact d : 0 <= d <= INT32_MAX -> int_of_double (SFsqrt 53 1024 (double_of_int d)) = Ok (Z.sqrt d).
Proof.
  intros Hd. destruct (sqrt_int d Hd) as (b & -> & F & _ & V). rewrite int_of_double_trunc by exact F. rewrite V.
  pose proof (rnd_sqrt_range d Hd) as [R1 R2]. pose proof (Z.sqrt_nonneg d) as N.
  assert (T : Ztrunc (rnd (sqrt (IZR d))) = Z.sqrt d).
  { rewrite Ztrunc_floor; [apply Zfloor_imp; split; auto|]. eapply Rle_trans; [|exact R1]. apply IZR_le, N. }
  rewrite T. apply i32_fits. assert (Z.sqrt d <= 46340) by (change 46340 with (Z.sqrt INT32_MAX); apply Z.sqrt_le_mono, Hd).
  unfold fits, INT32_MIN, INT32_MAX. lia.
Qed.

(** *** Nearest doubles *)
Lemma lift_finite d : double d -> finite d -> exists b : bin, B2SF b = d /\ is_finite b = true.
Proof. intros D F. destruct (lift d D) as [b Hb]. exists b. split; auto. apply finite_equiv. rewrite Hb. exact F. Qed.
Lemma nearest_rnd (b : bin) r : is_finite b = true -> B2R b = rnd r -> nearest r (B2SF b).
Proof.
  intros F E. split; [apply double_bin|]. split; [apply finite_equiv, F|]. intros d' D' F'. destruct (lift_finite d' D' F') as (b' & <- & Fb').
  rewrite !dR_bin, E. destruct (round_N_pt radix2 fexp (fun x => negb (Z.even x)) r) as [_ N]. apply N, generic_format_B2R.
Qed.
Lemma Ztrunc_Q q : Ztrunc (Q2R q) = Qtrunc q.
Proof.
  unfold Qtrunc. destruct q as [n d]. cbn [Qnum Qden]. unfold Q2R. cbn [Qnum Qden].
  assert (P : forall m, 0 <= m -> Ztrunc (IZR m * / IZR (Zpos d)) = Z.quot m (Zpos d)).
  { intros m Hm. rewrite Ztrunc_floor; [change (IZR m * / IZR (Zpos d))%R with (IZR m / IZR (Zpos d))%R; rewrite Zfloor_div by lia; symmetry; apply Z.quot_div_nonneg; lia|].
    apply Rmult_le_pos; [apply IZR_le, Hm|]. left. apply Rinv_0_lt_compat, IZR_lt. reflexivity. }
  destruct (Z_le_gt_dec 0 n) as [L|L]; [apply P, L|]. rewrite <- (Z.opp_involutive n), opp_IZR.
  replace (- IZR (- n) * / IZR (Zpos d))%R with (- (IZR (- n) * / IZR (Zpos d)))%R by ring.
  rewrite Ztrunc_opp, P by lia. rewrite Z.quot_opp_l by lia. rewrite !Z.opp_involutive. reflexivity.
Qed.
Lemma int_of_double_exact d : double d -> exact_if (finite d /\ fits (Qtrunc (dval d))) (int_of_double d) (fun k => R32 k (Qtrunc (dval d))).
Proof.
  intros D. destruct (lift d D) as [b <-]. destruct (is_finite b) eqn:F.
  - rewrite int_of_double_trunc by exact F. rewrite <- Q2R_dval, Ztrunc_Q. split; intros H.
    + rewrite i32_fits by apply H. eexists. split; [reflexivity|]. split; [reflexivity|apply H].
    + apply i32_over. intros G. apply H. split; [apply finite_equiv, F|exact G].
  - split; intros H; [destruct H as [H _]; apply finite_equiv in H; congruence|]. destruct b; try reflexivity; discriminate.
Qed.

(** *** norm and unit_vector of Vec<int> *)
Lemma squares_fit n v : ((forall i, (i < n)%nat -> fits (v i * v i)) /\ sums_fit n (fun i => v i * v i)) <-> total n (fun i => v i * v i) <= INT32_MAX.
Proof.
  split.
  - intros [_ H]. destruct n as [|n]; [unfold INT32_MAX; cbn; lia|]. destruct (H n) as [_ H']; [lia|exact H'].
  - intros H. apply bounded_fit. replace (total n (fun i => Z.abs (v i * v i))) with (total n (fun i => v i * v i)); [exact H|].
    unfold total. clear H. induction n as [|n IH]; [reflexivity|]. cbn [sum_to]. rewrite IH. f_equal. symmetry. apply Z.abs_eq. nia.
Qed.
Lemma squares_nonneg n v : 0 <= total n (fun i => v i * v i).
Proof. unfold total. induction n as [|n IH]; cbn [sum_to]; [lia|]. nia. Qed.
Lemma norm_32 {S} (conv : spec_float -> res S) x n v (Q : S -> Prop) : seq_of R32 x n v ->
  (total n (fun i => v i * v i) <= INT32_MAX -> exists s, conv (SFsqrt 53 1024 (double_of_int (total n (fun i => v i * v i)))) = Ok s /\ Q s) ->
  exact_if (total n (fun i => v i * v i) <= INT32_MAX) (norm int32_ops double_of_int conv x) Q.
Proof.
  intros Hx Hc. destruct (dot_32 x x n v v Hx Hx) as [H1 H2]. unfold norm. split; intros H.
  - destruct (H1 (proj2 (squares_fit n v) H)) as (d & -> & -> & _). cbn [bind]. apply Hc, H.
  - rewrite H2; [reflexivity|]. intros G. apply H, squares_fit, G.
Qed.
Lemma norm_int_32 x n v : seq_of R32 x n v ->
  exact_if (total n (fun i => v i * v i) <= INT32_MAX) (norm_int x) (fun r => r = Z.sqrt (total n (fun i => v i * v i))).
Proof.
  intros Hx. apply (norm_32 int_of_double x n v); [exact Hx|]. intros H. eexists. split; [|reflexivity]. apply isqrt_exact. split; [apply squares_nonneg|exact H].
Qed.
Lemma norm_int_double_32 x n v : seq_of R32 x n v ->
  exact_if (total n (fun i => v i * v i) <= INT32_MAX) (norm_int_double x) (fun r => nearest (sqrt (IZR (total n (fun i => v i * v i)))) r).
Proof.
  intros Hx. apply (norm_32 Ok x n v); [exact Hx|]. intros H. eexists. split; [reflexivity|].
  destruct (sqrt_int _ (conj (squares_nonneg n v) H)) as (b & -> & F & _ & V). apply nearest_rnd; auto.
Qed.
Lemma element_small n v i : (i < n)%nat -> v i * v i <= total n (fun i => v i * v i).
Proof.
  intros Hi. induction n as [|n IH]; [lia|]. unfold total in *. cbn [sum_to]. pose proof (squares_nonneg n v) as P. unfold total in P.
  destruct (Nat.eq_dec i n) as [->|N]; [lia|]. specialize (IH ltac:(lia)). nia.
Qed.
Lemma unit_int_32 x n v : seq_of R32 x n v -> let s := total n (fun i => v i * v i) in
  exact_if (s <= INT32_MAX /\ (s = 0 -> n = 0%nat)) (unit_int x) (fun r => seq_of R32 r n (fun i => Z.quot (v i) (Z.sqrt s))).
Proof.
  intros Hx s. unfold unit_int, unit_vector. destruct (norm_int_32 x n v Hx) as [N1 N2]. fold s in N1, N2. fold norm_int.
  assert (P : 0 <= s) by apply squares_nonneg.
  destruct (Z_le_gt_dec s INT32_MAX) as [L|L].
  - destruct (N1 L) as (k & -> & ->). cbn [bind].
    assert (C : exists y, Vec_of_vec Ok x = Ok y /\ seq_of R32 y n v).
    { apply ret_False. assert (Lx : length x = n) by apply Hx. unfold Vec_of_vec. rewrite Lx.
      eapply ret_mono; [apply (push_all_ok Ok never (fun i e => R32 e (v i)) x n n); [lia|lia|]|].
      - intros i e Hi E. apply ret_ok. destruct Hx as [_ Hx]. destruct (Hx i Hi) as (e' & E' & He). congruence.
      - intros r Hr. exact Hr. }
    destruct C as (y & -> & Hy). cbn [bind].
    destruct (divide_32 y (Z.sqrt s) n v Hy) as [D1 D2]. apply final_leaves. split.
    + intros [_ H]. apply D1. intros i Hi.
      assert (s <> 0) by (intros E; apply H in E; lia). assert (1 <= Z.sqrt s) by (change 1 with (Z.sqrt 1); apply Z.sqrt_le_mono; lia).
      split; [lia|]. pose proof (element_small n v i Hi) as Ei. fold s in Ei.
      assert (Hq : Z.abs (Z.quot (v i) (Z.sqrt s)) <= Z.abs (v i)).
      { rewrite <- Z.quot_abs by lia. rewrite (Z.abs_eq (Z.sqrt s)) by lia. apply Z.quot_le_upper_bound; nia. }
      apply (abs_fits _ (Z.abs (v i))); [exact Hq|]. unfold INT32_MAX in *. nia.
    + intros H. apply D2. intros G. apply H. split; [exact L|]. intros E. destruct n as [|n]; [reflexivity|]. destruct (G 0%nat) as [N _]; [lia|].
      rewrite E in N. exfalso. apply N. reflexivity.
  - split; intros H; [lia|]. rewrite N2 by lia. reflexivity.
Qed.
