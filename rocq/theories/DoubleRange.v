(** When the length of a Vec<double> vanishes and when it overflows. *)
From Coq Require Import Reals Qreals QArith Lra Lia SpecFloat.
From Flocq Require Import Core BinarySingleNaN Relative Plus_error.
From Verif Require Import Base IntModel IntBasics FracModel FracSpec CommonModel CommonSpec CommonProofs ElemModel ElemSpec ElemProofs VecModel VecProofs
  DoubleModel DoubleSpec DoubleProofs DoubleVec.
#[local] Existing Instances Hprec Hmax Vexp.
Local Open Scope R_scope.
Local Notation u := unit_roundoff.

(** *** What rounds to zero *)
Lemma rnd_half_least : rnd half_least = 0.
Proof.
  rewrite <- half_least_val. replace (/ 2 * bpow radix2 (-1074)) with (bpow radix2 (-1075)) by (rewrite half_least_val; unfold half_least; apply bpow_powerRZ).
  unfold round, scaled_mantissa, cexp. rewrite mag_bpow. change (fexp (-1075 + 1)) with (-1074)%Z. rewrite <- bpow_plus. change (-1075 + - (-1074))%Z with (-1)%Z.
  change (bpow radix2 (-1)) with (/ 2). cbn [round_mode]. unfold Znearest.
  assert (F : Zfloor (/ 2) = 0%Z) by (apply Zfloor_imp; change (0 + 1)%Z with 1%Z; lra). rewrite F. rewrite Rminus_0_r, Rcompare_Eq by reflexivity. cbn [negb Z.even]. apply F2R_0.
Qed.
Lemma rnd_tiny r : 0 <= r <= half_least -> rnd r = 0.
Proof.
  intros [H1 H2]. apply Rle_antisym.
  - rewrite <- rnd_half_least. apply rnd_le, H2.
  - apply round_ge_generic; auto with typeclass_instances. apply generic_format_0.
Qed.
Lemma rnd_not_tiny r : half_least < r -> bpow radix2 (-1074) <= rnd r.
Proof.
  intros H. pose proof half_least_val as L. pose proof (bpow_gt_0 radix2 (-1074)) as P.
  assert (G : generic_format radix2 fexp (bpow radix2 (-1074))) by (apply generic_format_bpow; rewrite fexp_FLT; unfold FLT_exp; lia).
  destruct (Rle_lt_dec (bpow radix2 (-1074)) r) as [C|C].
  - apply round_ge_generic; auto with typeclass_instances.
  - destruct (round_N_pt radix2 fexp (fun z => negb (Z.even z)) r) as [Gr N]. specialize (N _ G). cbn [round_mode] in *.
    rewrite (Rabs_pos_eq (bpow radix2 (-1074) - r)) in N by lra.
    assert (Pr : 0 < rnd r). { cbn [round_mode]. apply Rabs_le_inv in N. lra. }
    cbn [round_mode] in Pr. apply (generic_format_ge_bpow radix2 fexp (-1074)); auto. intros e. rewrite fexp_FLT. unfold FLT_exp. lia.
Qed.
Lemma zero_of_R (b : bin) : is_finite b = true -> Bsign b = false -> B2R b = 0 -> b = zero.
Proof.
  intros F S E. destruct b as [s|s| |s m e H]; try discriminate; cbn [Bsign] in S; subst s; [reflexivity|]. cbn [B2R] in E.
  assert (0 < F2R (beta := radix2) {| Fnum := cond_Zopp false (Z.pos m); Fexp := e |}) by (apply F2R_gt_0; reflexivity). lra.
Qed.
Lemma square_tiny (x : bin) : is_finite x = true -> B2R x * B2R x <= half_least -> Bmult mode_NE x x = zero.
Proof.
  intros F H. pose proof (rnd_tiny (B2R x * B2R x) ltac:(split; [nra|exact H])) as Z.
  pose proof (Bmult_correct 53 1024 Hprec Hmax mode_NE x x) as C. rewrite Z, Rabs_R0, Rlt_bool_true in C by apply bpow_gt_0. destruct C as (C1 & C2 & _).
  rewrite F in C2. apply zero_of_R; auto. apply square_nonneg, finite_not_nan, F.
Qed.
Lemma fdot_zero n v : fdot n v v = zero <-> (forall i, (i < n)%nat -> is_finite (v i) = true /\ B2R (v i) * B2R (v i) <= half_least).
Proof.
  split.
  - intros E i Hi. assert (F : is_finite (fdot n v v) = true) by (rewrite E; reflexivity). destruct (fdot_error _ _ _ F) as [Fv _].
    split; [apply Fv, Hi|]. pose proof (fdot_ge n v i F Hi) as G. rewrite E in G. cbn [B2R zero] in G.
    destruct (Rle_lt_dec (B2R (v i) * B2R (v i)) half_least) as [C|C]; [exact C|]. apply rnd_not_tiny in C. pose proof (bpow_gt_0 radix2 (-1074)). lra.
  - intros H. unfold fdot. induction n as [|n IH]; [reflexivity|]. cbn [sum_to]. rewrite IH by auto. destruct (H n ltac:(auto)) as [F L]. rewrite square_tiny by auto. reflexivity.
Qed.
Lemma norm_zero n v : Bsqrt mode_NE (fdot n v v) = zero <-> (forall i, (i < n)%nat -> is_finite (v i) = true /\ B2R (v i) * B2R (v i) <= half_least).
Proof.
  rewrite <- fdot_zero. split; [|intros ->; reflexivity]. intros E.
  assert (F : is_finite (fdot n v v) = true) by (apply finite_sqrt; rewrite E; reflexivity).
  assert (N : nonneg (fdot n v v)). { apply fdot_nonneg. intros i Hi. apply finite_not_nan. apply (fdot_error n v v F), Hi. }
  apply zero_of_R; [exact F|apply N|]. destruct (Bsqrt_correct 53 1024 Hprec Hmax mode_NE (fdot n v v)) as (C & _). rewrite E in C. cbn [B2R zero] in C.
  destruct (rnd_sqrt _ F (proj2 N)) as (e & He & R). rewrite R in C. pose proof u_pos as U. apply Rabs_le_inv in He.
  pose proof (nonneg_R _ (proj2 N)) as P. apply sqrt_eq_0; [exact P|]. symmetry in C. apply Rmult_integral in C as [C|C]; [exact C|lra].
Qed.

(** *** What overflows *)
Lemma largest_val : largest = F2R (Float radix2 9007199254740991 971).
Proof. unfold largest, F2R. rewrite <- (bpow_powerRZ radix2). reflexivity. Qed.
Lemma largest_format : generic_format radix2 fexp largest.
Proof.
  rewrite largest_val. rewrite fexp_FLT. apply generic_format_FLT. exists (Float radix2 9007199254740991 971); [reflexivity|reflexivity|discriminate].
Qed.
Lemma largest_lt : largest < bpow radix2 1024.
Proof. unfold largest. rewrite <- (bpow_powerRZ radix2). change 1024%Z with (53 + 971)%Z. rewrite bpow_plus. apply Rmult_lt_compat_r; [apply bpow_gt_0|]. change (bpow radix2 53) with (IZR 9007199254740992). apply IZR_lt. lia. Qed.
Lemma bin_le_largest (b : bin) : Rabs (B2R b) <= largest.
Proof.
  pose proof (abs_B2R_le_emax_minus_prec 53 1024 Hprec b) as H. eapply Rle_trans; [exact H|]. right. unfold largest. rewrite <- (bpow_powerRZ radix2).
  change 1024%Z with (53 + 971)%Z. change (53 + 971 - 53)%Z with 971%Z. rewrite bpow_plus. change (bpow radix2 53) with (IZR 9007199254740992). replace (IZR 9007199254740991) with (IZR 9007199254740992 - 1) by lra. ring.
Qed.
Lemma rnd_no_overflow r : Rabs r <= largest -> Rabs (rnd r) < bpow radix2 1024.
Proof. intros H. eapply Rle_lt_trans; [|apply largest_lt]. apply abs_round_le_generic; auto with typeclass_instances. apply largest_format. Qed.
Definition room (n : nat) (S : R) : R := (1 + u) ^ Datatypes.S n * S + INR n * (1 + u) ^ n * half_least.
Lemma room_step n s p : 0 <= s -> 0 <= p -> room n s + (p * (1 + u) + half_least) <= room (S n) (s + p).
Proof.
  intros Hs Hp. unfold room. pose proof u_pos as U. pose proof half_least_pos as L. pose proof (pow_ge_1 n) as P. rewrite S_INR. cbn [pow]. pose proof (pos_INR n) as I.
  set (q := (1 + u) ^ n) in *. set (c := (1 + u) * q). assert (Hc : q <= c) by (unfold c; nra). assert (Hd : c <= (1 + u) * c) by (assert (0 < c) by lra; nra).
  assert (Q : 1 + u <= (1 + u) * c) by nra.
  assert (A : c * s <= (1 + u) * c * s) by (apply Rmult_le_compat_r; lra).
  assert (B : (1 + u) * p <= (1 + u) * c * p) by (apply Rmult_le_compat_r; lra).
  assert (C : INR n * q * half_least <= INR n * c * half_least) by (apply Rmult_le_compat_r; [lra|]; apply Rmult_le_compat_l; lra).
  assert (D : 1 * half_least <= c * half_least) by (apply Rmult_le_compat_r; lra). lra.
Qed.
Lemma room_mono n m s t : (n <= m)%nat -> 0 <= s -> s <= t -> room n s <= room m t.
Proof.
  intros Hnm Hs Hst. unfold room. pose proof u_pos as U. pose proof half_least_pos as L. apply Rplus_le_compat.
  - apply Rmult_le_compat; auto; [apply pow_le; lra|]. apply Rle_pow; [lra|lia].
  - apply Rmult_le_compat_r; [lra|]. apply Rmult_le_compat; [apply pos_INR|apply pow_le; lra|apply le_INR; auto|apply Rle_pow; [lra|auto]].
Qed.
Lemma fdot_finite n v : (forall i, (i < n)%nat -> is_finite (v i) = true) -> room n (Rsum n (fun i => B2R (v i) * B2R (v i))) <= largest -> is_finite (fdot n v v) = true.
Proof.
  induction n as [|n IH]; intros Fv H; [reflexivity|]. cbn [Rsum] in H. set (s := Rsum n _) in *. set (p := B2R (v n) * B2R (v n)) in *.
  assert (Ps : 0 <= s) by (apply Rsum_nonneg; intros; nra). assert (Pp : 0 <= p) by (unfold p; nra).
  pose proof (room_step n s p Ps Pp) as St. pose proof u_pos as U. pose proof half_least_pos as L.
  assert (Fn : is_finite (fdot n v v) = true) by (apply IH; [auto|]; fold s; nra).
  change (fdot (S n) v v) with (Bplus mode_NE (fdot n v v) (Bmult mode_NE (v n) (v n))).
  destruct (rnd_any p) as (e & h & He & Hh & E). apply Rabs_le_inv in He, Hh.
  assert (R0 : 0 <= rnd p) by (apply round_ge_generic; auto with typeclass_instances; apply generic_format_0).
  assert (Rp : rnd p <= p * (1 + u) + half_least) by (rewrite E; nra).
  destruct (fdot_error n v v Fn) as [_ B]. fold s in B.
  rewrite (Rsum_ext n (fun i => Rabs (B2R (v i) * B2R (v i))) (fun i => B2R (v i) * B2R (v i))) in B by (intros i Hi; apply Rabs_pos_eq; nra). fold s in B.
  assert (N : nonneg (fdot n v v)) by (apply fdot_nonneg; intros i Hi; apply finite_not_nan, Fv; auto). pose proof (nonneg_R _ (proj2 N)) as P0.
  assert (Bd : B2R (fdot n v v) <= room n s) by (apply Rabs_le_inv in B; unfold room; lra).
  pose proof (Bmult_correct 53 1024 Hprec Hmax mode_NE (v n) (v n)) as C. fold p in C. rewrite Rlt_bool_true in C.
  2:{ apply rnd_no_overflow. rewrite Rabs_pos_eq by exact Pp. assert (0 <= room n s) by (eapply Rle_trans; [exact P0|exact Bd]). nra. }
  destruct C as (C1 & C2 & _). rewrite (Fv n) in C2 by auto.
  pose proof (Bplus_correct 53 1024 Hprec Hmax mode_NE _ _ Fn C2) as D. rewrite C1, Rlt_bool_true in D; [apply D|].
  apply rnd_no_overflow. rewrite Rabs_pos_eq by lra. lra.
Qed.
(** a finite length fits *)
Lemma fdot_fits n v : is_finite (fdot n v v) = true -> (2 - (1 + u) ^ S n) * Rsum n (fun i => B2R (v i) * B2R (v i)) <= largest + INR n * (1 + u) ^ n * half_least.
Proof.
  intros F. destruct (fdot_error n v v F) as [_ B].
  rewrite (Rsum_ext n (fun i => Rabs (B2R (v i) * B2R (v i))) (fun i => B2R (v i) * B2R (v i))) in B by (intros i Hi; apply Rabs_pos_eq; nra).
  pose proof (bin_le_largest (fdot n v v)) as L. apply Rabs_le_inv in B, L. lra.
Qed.
Lemma inf_of_nonneg (b : bin) : nonneg b -> is_finite b = false -> b = B754_infinity false.
Proof. intros [N S] F. destruct b as [s|s| |s m e H]; try discriminate; cbn in S; subst; reflexivity. Qed.

(** *** The square of one element *)
Lemma square_overflow (x : bin) : is_finite x = true -> (is_finite (Bmult mode_NE x x) = true <-> Rabs (B2R x) < bpow radix2 512).
Proof.
  intros F. split; intros H.
  - apply Rnot_le_lt. intros L. destruct (finite_mult x x H) as (_ & _ & E). pose proof (bin_le_largest (Bmult mode_NE x x)) as B. rewrite E in B.
    assert (G : bpow radix2 1024 <= rnd (B2R x * B2R x)).
    { apply round_ge_generic; auto with typeclass_instances; [apply generic_format_bpow; rewrite fexp_FLT; unfold FLT_exp; lia|].
      rewrite <- (Rabs_pos_eq (B2R x * B2R x)), Rabs_mult by nra. change 1024%Z with (512 + 512)%Z. rewrite bpow_plus. apply Rmult_le_compat; auto using bpow_ge_0. }
    pose proof largest_lt. apply Rabs_le_inv in B. lra.
  - assert (P : Rabs (B2R x) <= bpow radix2 512 - bpow radix2 459).
    { assert (G : generic_format radix2 fexp (Rabs (B2R x))) by apply generic_format_abs, generic_format_B2R.
      assert (G2 : generic_format radix2 fexp (bpow radix2 512)) by (apply generic_format_bpow; rewrite fexp_FLT; unfold FLT_exp; lia).
      pose proof (pred_ge_gt radix2 fexp _ _ G G2 H) as Q. rewrite pred_eq_pos in Q by apply bpow_ge_0. unfold pred_pos in Q. rewrite mag_bpow in Q. replace (512 + 1 - 1)%Z with 512%Z in Q by reflexivity.
      rewrite Req_bool_true in Q by reflexivity. change (fexp 512) with 459%Z in Q. exact Q. }
    pose proof (Bmult_correct 53 1024 Hprec Hmax mode_NE x x) as C. rewrite Rlt_bool_true in C; [destruct C as (_ & C & _); rewrite C, F; reflexivity|].
    apply rnd_no_overflow. rewrite Rabs_mult. apply Rle_trans with ((bpow radix2 512 - bpow radix2 459) * (bpow radix2 512 - bpow radix2 459)).
    + apply Rmult_le_compat; auto using Rabs_pos.
    + unfold largest. rewrite <- (bpow_powerRZ radix2). set (b := bpow radix2 459). replace (bpow radix2 512) with (9007199254740992 * b) by (unfold b; change 512%Z with (53 + 459)%Z; rewrite bpow_plus; reflexivity).
      replace (bpow radix2 971) with (9007199254740992 * b * b) by (unfold b; change 971%Z with (53 + 459 + 459)%Z; rewrite !bpow_plus; reflexivity).
      assert (0 <= b * b) by nra. nra.
Qed.
Lemma plus_inf (x y : bin) : nonneg x -> nonneg y -> is_finite x = false \/ is_finite y = false -> Bplus mode_NE x y = B754_infinity false.
Proof.
  intros [Nx Sx] [Ny Sy] H. destruct x as [s|s| |s m e Hb], y as [t|t| |t k f Hc]; try discriminate; cbn in Sx, Sy; subst; try reflexivity; destruct H; discriminate.
Qed.
Lemma fdot_huge n v : (forall i, (i < n)%nat -> is_nan (v i) = false) -> (exists i, (i < n)%nat /\ is_finite (Bmult mode_NE (v i) (v i)) = false) -> fdot n v v = B754_infinity false.
Proof.
  intros N (i & Hi & E). unfold fdot. induction n as [|n IH]; [lia|]. cbn [sum_to].
  pose proof (fdot_nonneg n v ltac:(auto)) as A. pose proof (square_nonneg (v n) (N n ltac:(auto))) as B. apply plus_inf; auto.
  destruct (Nat.eq_dec i n) as [->|D]; [right; exact E|left]. unfold fdot in IH. rewrite IH; auto. lia.
Qed.
Lemma fdot_one v : is_finite (v 0%nat) = true -> Rabs (B2R (v 0%nat)) < bpow radix2 512 -> is_finite (fdot 1 v v) = true.
Proof.
  intros F H. apply (square_overflow _ F) in H. change (fdot 1 v v) with (Bplus mode_NE zero (Bmult mode_NE (v 0%nat) (v 0%nat))).
  destruct (Bmult mode_NE _ _) as [s|s| |s m e Hb]; try discriminate; [destruct s|]; reflexivity.
Qed.

(** *** norm *)
Lemma bin_finite x i : Forall double x -> Forall finite x -> (i < length x)%nat -> is_finite (bin_of (nth i x S754_nan)) = true.
Proof.
  intros Hx Fx Hi. apply finite_equiv. rewrite Forall_forall in Hx, Fx. pose proof (nth_In x S754_nan Hi) as I. rewrite bin_of_ok by auto. auto.
Qed.
Lemma squares_bin x : Forall double x -> Rsum (length x) (fun i => elem x i * elem x i) = Rsum (length x) (fun i => B2R (bin_of (nth i x S754_nan)) * B2R (bin_of (nth i x S754_nan))).
Proof. intros Hx. apply Rsum_ext. intros i Hi. rewrite elem_bin by auto. reflexivity. Qed.
Lemma norm_zero_iff x : Forall double x -> (norm_double x = Ok (S754_zero false) <-> Forall finite x /\ forall i, (i < length x)%nat -> elem x i * elem x i <= half_least).
Proof.
  intros Hx. rewrite (norm_bin x _ _ (seq_bin x Hx)). set (v := fun i => _). split.
  - intros E. apply Ok_inj in E. change (S754_zero false) with (B2SF zero) in E. apply B2SF_inj in E. pose proof (proj1 (norm_zero _ _) E) as Z.
    split; [apply (finite_elems x Hx); intros i Hi; apply Z, Hi|]. intros i Hi. rewrite elem_bin by auto. apply Z, Hi.
  - intros [Fx H]. rewrite (proj2 (norm_zero (length x) v)); [reflexivity|]. intros i Hi. split; [apply bin_finite; auto|]. specialize (H i Hi). rewrite elem_bin in H by auto. exact H.
Qed.
Lemma norm_finite x n : Forall double x -> Forall finite x -> length x = n ->
  (1 + u) ^ S n * Rsum n (fun i => elem x i * elem x i) + INR n * (1 + u) ^ n * half_least <= largest -> exists d, norm_double x = Ok d /\ finite d.
Proof.
  intros Hx Fx Ln H. subst n. rewrite (norm_bin x _ _ (seq_bin x Hx)). eexists. split; [reflexivity|]. apply finite_equiv. set (v := fun i => _).
  rewrite squares_bin in H by auto. fold (room (length x) (Rsum (length x) (fun i => B2R (v i) * B2R (v i)))) in H.
  assert (F : is_finite (fdot (length x) v v) = true) by (apply fdot_finite; [intros i Hi; apply bin_finite; auto|exact H]).
  destruct (Bsqrt_correct 53 1024 Hprec Hmax mode_NE (fdot (length x) v v)) as (_ & C & _).
  assert (N : nonneg (fdot (length x) v v)) by (apply fdot_nonneg; intros i Hi; apply finite_not_nan, bin_finite; auto).
  destruct N as [_ N]. destruct (fdot (length x) v v) as [s|s| |s m e Hb]; try discriminate; [reflexivity|]. cbn [Bsign] in N. subst s. exact C.
Qed.
Lemma not_nan_elems x : Forall double x -> ~ In S754_nan x -> forall i, (i < length x)%nat -> is_nan (bin_of (nth i x S754_nan)) = false.
Proof. intros Hx N i Hi. destruct (is_nan _) eqn:E; [|reflexivity]. exfalso. apply N, (nan_elem x i Hx Hi E). Qed.
Lemma norm_infinite x n : Forall double x -> Forall finite x -> length x = n ->
  largest + INR n * (1 + u) ^ n * half_least < (2 - (1 + u) ^ S n) * Rsum n (fun i => elem x i * elem x i) -> norm_double x = Ok (S754_infinity false).
Proof.
  intros Hx Fx Ln H. subst n. rewrite (norm_bin x _ _ (seq_bin x Hx)). set (v := fun i => _). rewrite squares_bin in H by auto.
  assert (N : nonneg (fdot (length x) v v)) by (apply fdot_nonneg; intros i Hi; apply finite_not_nan, bin_finite; auto).
  destruct (is_finite (fdot (length x) v v)) eqn:F; [apply fdot_fits in F; unfold v in F; lra|]. rewrite (inf_of_nonneg _ N F). reflexivity.
Qed.
Lemma norm_huge x i : Forall double x -> ~ In S754_nan x -> (i < length x)%nat -> ~ finite (nth i x S754_nan) \/ powerRZ 2 512 <= Rabs (elem x i) -> norm_double x = Ok (S754_infinity false).
Proof.
  intros Hx N Hi H. rewrite (norm_bin x _ _ (seq_bin x Hx)). set (v := fun i => _). rewrite (fdot_huge (length x) v); [reflexivity|apply not_nan_elems; auto|].
  exists i. split; [exact Hi|]. pose proof (not_nan_elems x Hx N i Hi) as Nn. fold (v i) in Nn.
  destruct (is_finite (v i)) eqn:F.
  - destruct H as [H|H]; [exfalso; apply H|].
    + rewrite <- (bin_of_ok (nth i x S754_nan)) by (rewrite Forall_forall in Hx; apply Hx, nth_In, Hi). apply finite_equiv, F.
    + rewrite elem_bin in H by auto. fold (v i) in H. rewrite <- (bpow_powerRZ radix2) in H. destruct (is_finite (Bmult _ _ _)) eqn:G; [|reflexivity]. apply (square_overflow _ F) in G. lra.
  - destruct (v i); try discriminate; reflexivity.
Qed.
Lemma norm_one d : double d -> finite d -> (norm_double [d] = Ok (S754_infinity false) <-> powerRZ 2 512 <= Rabs (dR d)).
Proof.
  intros Hd Fd. assert (Hx : Forall double [d]) by (constructor; auto). split.
  - intros E. apply Rnot_lt_le. intros L. rewrite (norm_bin [d] _ _ (seq_bin [d] Hx)) in E. apply Ok_inj in E. set (v := fun i => _) in E.
    assert (Fv : is_finite (v 0%nat) = true) by (apply finite_equiv; unfold v; cbn [nth]; rewrite bin_of_ok by auto; exact Fd).
    assert (F : is_finite (fdot 1 v v) = true). { apply fdot_one; [exact Fv|]. unfold v. cbn [nth]. rewrite <- dR_bin, bin_of_ok by auto. rewrite (bpow_powerRZ radix2). exact L. }
    change (length [d]) with 1%nat in E. pose proof (fdot_nonneg 1 v ltac:(intros i Hi; replace i with 0%nat by lia; apply finite_not_nan, Fv)) as [_ N].
    destruct (Bsqrt_correct 53 1024 Hprec Hmax mode_NE (fdot 1 v v)) as (_ & C & _).
    destruct (fdot 1 v v) as [s|s| |s m e Hb]; try discriminate. cbn [Bsign] in N. subst s. change (S754_infinity false) with (B2SF (@B754_infinity 53 1024 false)) in E. apply B2SF_inj in E. rewrite E in C. discriminate C.
  - intros H. apply (norm_huge [d] 0%nat Hx); [|cbn; lia|right; exact H]. intros [E|[]]. subst d. destruct Fd.
Qed.
