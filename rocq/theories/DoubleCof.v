(** row_cofactor_expansion and col_cofactor_expansion of Mat<double> (src/Mat.hpp:300-342):
    error bounds. *)
From Coq Require Import Reals Qreals QArith Lra Lia SpecFloat.
From Flocq Require Import Core BinarySingleNaN Relative.
From Verif Require Import Base IntModel IntBasics FracModel FracSpec CommonModel CommonSpec CommonProofs ElemModel ElemSpec ElemProofs VecModel VecProofs
  MatModel MatSpec MatProofs DoubleModel DoubleSpec DoubleProofs DoubleVec DoubleRange DoubleMat DoubleElim.
#[local] Existing Instances Hprec Hmax Vexp.
Local Open Scope R_scope.
Local Notation u := unit_roundoff.

(** *** Multiples of a power of two stay so, and lose nothing to underflow *)
Lemma grid_bpow m r : grid m r <-> exists k, r = IZR k * bpow radix2 (- m).
Proof. unfold grid. rewrite (bpow_powerRZ radix2). reflexivity. Qed.
Lemma grid_F2R m r : grid m r <-> exists k, r = F2R (Float radix2 k (- m)).
Proof. apply grid_bpow. Qed.
Lemma grid_0 m : grid m 0.
Proof. exists 0%Z. ring. Qed.
Lemma grid_mult m n a b : grid m a -> grid n b -> grid (m + n) (a * b).
Proof.
  rewrite !grid_bpow. intros (j & ->) (k & ->). exists (j * k)%Z. rewrite mult_IZR. replace (- (m + n))%Z with (- m + - n)%Z by lia. rewrite bpow_plus. ring.
Qed.
Lemma grid_plus m a b : grid m a -> grid m b -> grid m (a + b).
Proof. intros (j & ->) (k & ->). exists (j + k)%Z. rewrite plus_IZR. ring. Qed.
Lemma grid_opp m a : grid m a -> grid m (- a).
Proof. intros (j & ->). exists (- j)%Z. rewrite opp_IZR. ring. Qed.
Lemma grid_finer m n a : (m <= n)%Z -> grid m a -> grid n a.
Proof.
  rewrite !grid_bpow. intros L (k & ->). exists (k * Zpower radix2 (n - m))%Z. rewrite mult_IZR, IZR_Zpower by lia. rewrite Rmult_assoc, <- bpow_plus. do 2 f_equal. lia.
Qed.
Lemma grid_cases m r : (m <= 1074)%Z -> grid m r -> rnd r = r \/ (- m < cexp radix2 fexp r)%Z.
Proof.
  intros L G. destruct (Z.le_gt_cases (cexp radix2 fexp r) (- m)) as [C|C]; [left|right; exact C]. apply rnd_format.
  apply grid_F2R in G as (k & ->). apply generic_format_F2R. intros _. exact C.
Qed.
Lemma grid_rnd m r : (m <= 1074)%Z -> grid m r -> grid m (rnd r).
Proof.
  intros L G. destruct (grid_cases m r L G) as [->|C]; [exact G|]. apply (grid_finer (- cexp radix2 fexp r)); [lia|]. apply grid_F2R.
  eexists. rewrite Z.opp_involutive. reflexivity.
Qed.
Lemma grid_relative m r : (m <= 1074)%Z -> grid m r -> exists e, Rabs e <= u /\ rnd r = r * (1 + e).
Proof.
  intros L G. assert (X : rnd r = r -> exists e, Rabs e <= u /\ rnd r = r * (1 + e)) by (intros E; exists 0; rewrite Rabs_R0; pose proof u_pos; split; [lra|rewrite E; ring]).
  destruct (Req_dec r 0) as [Z|Nz]; [apply X; rewrite Z; apply rnd_zero|]. destruct (grid_cases m r L G) as [E|C]; [auto|].
  apply rnd_normal. unfold cexp in C. assert (M : (-1022 < mag radix2 r)%Z) by (unfold fexp, SpecFloat.fexp, SpecFloat.emin in C; lia).
  pose proof (bpow_mag_le radix2 r Nz) as B. eapply Rle_trans; [|exact B]. change 2 with (IZR radix2). rewrite <- (bpow_powerRZ radix2). apply bpow_le. lia.
Qed.

(** *** Sums of products of entries and minors *)
Section Close.
Context (e : Z).
(** a computed value, the exact one, and the exact one with absolute values *)
Definition within (K : nat) (m : Z) (b : bin) (r t : R) : Prop := Rabs (B2R b - r) <= ((1 + u) ^ K - 1) * t /\ grid m (B2R b).

Lemma pow_mono i j : (i <= j)%nat -> (1 + u) ^ i <= (1 + u) ^ j.
Proof. intros H. apply Rle_pow; [pose proof u_pos; lra|exact H]. Qed.
Lemma within_mono K K' m b r t : (K <= K')%nat -> 0 <= t -> within K m b r t -> within K' m b r t.
Proof. intros H T [W G]. split; [|exact G]. pose proof (pow_mono K K' H). eapply Rle_trans; [exact W|]. apply Rmult_le_compat_r; lra. Qed.
Lemma within_abs K m b r t : within K m b r t -> Rabs r <= t -> Rabs (B2R b) <= (1 + u) ^ K * t.
Proof. intros [W _] H. replace (B2R b) with ((B2R b - r) + r) by ring. eapply Rle_trans; [apply Rabs_triang|]. lra. Qed.
(** what one more rounding does to an error *)
Lemma round_error a r t K x : Rabs (a - r) <= ((1 + u) ^ K - 1) * t -> Rabs r <= t -> Rabs x <= u -> Rabs (a * (1 + x) - r) <= ((1 + u) ^ S K - 1) * t.
Proof.
  intros H Hr Hx. pose proof u_pos as U. replace (a * (1 + x) - r) with ((a - r) * (1 + x) + r * x) by ring. eapply Rle_trans; [apply Rabs_triang|]. rewrite !Rabs_mult.
  assert (A : Rabs (1 + x) <= 1 + u) by (eapply Rle_trans; [apply Rabs_triang|]; rewrite Rabs_R1; lra).
  assert (B : Rabs (a - r) * Rabs (1 + x) <= ((1 + u) ^ K - 1) * t * (1 + u)) by (apply Rmult_le_compat; try apply Rabs_pos; auto).
  assert (C : Rabs r * Rabs x <= t * u) by (apply Rmult_le_compat; try apply Rabs_pos; auto). cbn [pow]. lra.
Qed.
Lemma mult_within K m x d a r t : (e + m <= 1074)%Z -> is_finite (Bmult mode_NE x d) = true -> B2R x = a -> grid e a -> within K m d r t -> Rabs r <= t ->
  within (S K) (e + m) (Bmult mode_NE x d) (a * r) (Rabs a * t).
Proof.
  intros L F <- Ga [W G] Hr. destruct (finite_mult _ _ F) as (_ & _ & E). pose proof (grid_mult _ _ _ _ Ga G) as Gm. split; [|rewrite E; apply grid_rnd; auto].
  rewrite E. destruct (grid_relative _ _ L Gm) as (y & Hy & ->). apply round_error; auto.
  - rewrite <- Rmult_minus_distr_l, Rabs_mult. replace (((1 + u) ^ K - 1) * (Rabs (B2R x) * t)) with (Rabs (B2R x) * (((1 + u) ^ K - 1) * t)) by ring. apply Rmult_le_compat_l; [apply Rabs_pos|exact W].
  - rewrite Rabs_mult. apply Rmult_le_compat_l; [apply Rabs_pos|exact Hr].
Qed.
Lemma plus_within K m x y r r' t t' : (m <= 1074)%Z -> is_finite (Bplus mode_NE x y) = true -> within K m x r t -> within K m y r' t' -> Rabs r <= t -> Rabs r' <= t' ->
  within (S K) m (Bplus mode_NE x y) (r + r') (t + t').
Proof.
  intros L F [W G] [W' G'] Hr Hr'. destruct (finite_plus _ _ F) as (_ & _ & E). split; [|rewrite E; apply grid_rnd; auto; apply grid_plus; auto].
  rewrite E. destruct (rnd_plus x y) as (z & Hz & ->). apply round_error; auto.
  - replace (B2R x + B2R y - (r + r')) with ((B2R x - r) + (B2R y - r')) by ring. eapply Rle_trans; [apply Rabs_triang|]. lra.
  - eapply Rle_trans; [apply Rabs_triang|]. lra.
Qed.
Lemma opp_within K m x r t : within K m x r t -> within K m (Bopp x) (- r) t.
Proof. intros [W G]. unfold within. rewrite B2R_Bopp. split; [|apply grid_opp, G]. replace (- B2R x - - r) with (- (B2R x - r)) by ring. rewrite Rabs_Ropp. exact W. Qed.
Lemma mult_finite x d B : is_finite x = true -> is_finite d = true -> Rabs (B2R x * B2R d) <= B -> B <= largest -> is_finite (Bmult mode_NE x d) = true.
Proof.
  intros Fx Fd H L. pose proof (Bmult_correct 53 1024 Hprec Hmax mode_NE x d) as C. rewrite Rlt_bool_true in C by (apply rnd_no_overflow; lra). rewrite Fx, Fd in C. apply C.
Qed.
Lemma plus_finite x d B : is_finite x = true -> is_finite d = true -> Rabs (B2R x + B2R d) <= B -> B <= largest -> is_finite (Bplus mode_NE x d) = true.
Proof.
  intros Fx Fd H L. pose proof (Bplus_correct 53 1024 Hprec Hmax mode_NE x d Fx Fd) as C. rewrite Rlt_bool_true in C by (apply rnd_no_overflow; lra). apply C.
Qed.
Lemma Bminus_opp (x y : bin) : Bminus mode_NE x y = Bplus mode_NE x (Bopp y).
Proof. destruct x, y; reflexivity. Qed.

(** the sum in the loop: a k and the minors d k, whose exact values are r k; skipped when a k is 0 *)
Local Notation sgn k := ((-1) ^ k).
Definition part (a r : nat -> R) (k : nat) : R := Rsum k (fun i => sgn i * (a i * r i)).
Definition part_abs (a t : nat -> R) (k : nat) : R := Rsum k (fun i => Rabs (a i) * t i).
Lemma sgn_cases k : if (k mod 2 =? 1)%nat then sgn k = -1 else sgn k = 1.
Proof.
  destruct (Nat.eqb_spec (k mod 2) 1) as [H|H].
  - pose proof (Nat.div_mod k 2 ltac:(lia)) as D. rewrite H in D. rewrite D. replace (2 * (k / 2) + 1)%nat with (S (2 * (k / 2))) by lia. apply pow_1_odd.
  - pose proof (Nat.div_mod k 2 ltac:(lia)) as D. assert (Z : (k mod 2 = 0)%nat) by (pose proof (Nat.mod_upper_bound k 2); lia). rewrite Z, Nat.add_0_r in D. rewrite D. apply pow_1_even.
Qed.
Lemma part_le a r t k : (forall i, (i < k)%nat -> Rabs (r i) <= t i) -> Rabs (part a r k) <= part_abs a t k.
Proof.
  intros H. unfold part, part_abs. eapply Rle_trans; [apply Rsum_abs|]. induction k as [|k IH]; cbn [Rsum]; [lra|]. apply Rplus_le_compat; [apply IH; intros; apply H; lia|].
  rewrite !Rabs_mult, pow_1_abs, Rmult_1_l. apply Rmult_le_compat_l; [apply Rabs_pos|apply H; lia].
Qed.
Lemma part_abs_bound a t b T k : 0 <= b -> (forall i, (i < k)%nat -> Rabs (a i) <= b /\ 0 <= t i <= T) -> part_abs a t k <= INR k * (b * T).
Proof.
  intros Hb H. unfold part_abs. induction k as [|k IH]; cbn [Rsum]; [cbn; lra|]. rewrite S_INR. specialize (IH ltac:(intros; apply H; lia)). destruct (H k ltac:(lia)) as (A & B & C).
  assert (Rabs (a k) * t k <= b * T) by (apply Rmult_le_compat; auto; apply Rabs_pos). lra.
Qed.
Lemma expansion_close m n g rec ent mnr a r t K m' (B : Prop) b T : mat_of R_double m n n g -> (3 <= n)%nat -> (e + m' <= 1074)%Z ->
  (forall k, (k < n)%nat -> exists x, ent k = Ok x /\ R_double x (a k) /\ grid e (a k)) ->
  (forall k, (k < n)%nat -> exists s d, mnr k = Ok s /\ rec s = Ok (B2SF d) /\ (is_finite d = true -> within K m' d (r k) (t k)) /\
     (B -> (1 + u) ^ K * T <= largest -> is_finite d = true)) ->
  (forall k, (k < n)%nat -> Rabs (r k) <= t k) -> (B -> 1 <= b /\ forall k, (k < n)%nat -> Rabs (a k) <= b /\ t k <= T) ->
  exists d, expansion double_ops rec m n ent mnr = Ok (B2SF d) /\ (is_finite d = true -> within (K + n) (e + m') d (part a r n) (part_abs a t n)) /\
    (B -> (1 + u) ^ (K + n) * (INR n * (b * T)) <= largest -> is_finite d = true).
Proof.
  intros Hm Hn L Hent Hmnr Hr HB. set (big := B /\ (1 + u) ^ (K + n) * (INR n * (b * T)) <= largest).
  set (inv k d := (is_finite d = true -> within (S K + (k - 1)) (e + m') d (part a r k) (part_abs a t k)) /\ (big -> is_finite d = true)).
  assert (T0 : forall k, (k < n)%nat -> 0 <= t k) by (intros k Hk; pose proof (Rabs_pos (r k)); specialize (Hr k Hk); lra).
  assert (Hbt : big -> 0 <= b * T).
  { intros [HB' _]. destruct (HB HB') as [B1 B2]. destruct (B2 O ltac:(lia)) as [_ Q]. specialize (T0 O ltac:(lia)). apply Rmult_le_pos; lra. }
  assert (Hbig : big -> forall i c, (i <= K + n)%nat -> 0 <= c <= INR n -> (1 + u) ^ i * (c * (b * T)) <= largest).
  { intros HQ i c Hi Hc. pose proof (Hbt HQ) as P. destruct HQ as [_ Q]. eapply Rle_trans; [|exact Q]. pose proof (pow_ge_1 i). apply Rmult_le_compat; try lra; [nra|apply pow_mono, Hi|apply Rmult_le_compat_r; lra]. }
  assert (Hnn : 3 <= INR n) by (change 3 with (IZR (Z.of_nat 3)); rewrite <- INR_IZR_INZ; apply le_INR, Hn).
  enough (X : ret never (expansion double_ops rec m n ent mnr) (fun d => exists d', d = B2SF d' /\ inv n d')).
  { destruct (ret_False _ _ X) as (d & E & d' & -> & I1 & I2). exists d'. split; [exact E|]. split; [|intros; apply I2; split; auto].
    replace (K + n)%nat with (S K + (n - 1))%nat by lia. exact I1. }
  unfold expansion. destruct (mat_of_dims _ _ _ _ _ Hm) as (-> & -> & _). rewrite Nat.eqb_refl. destruct (Nat.eqb_spec n 1), (Nat.eqb_spec n 2); try lia. cbn [negb].
  apply ret_final. apply (sret_for never (fun k st => exists d, st = B2SF d /\ inv k d) n 0).
  { exists DoubleVec.zero. split; [reflexivity|]. split; [intros _|reflexivity]. split; [|apply grid_0]. unfold part, part_abs. cbn [Rsum]. change (B2R DoubleVec.zero) with 0. rewrite Rminus_0_r, Rabs_R0. lra. }
  intros k st Hk (sb & -> & I1 & I2). destruct (Hent k ltac:(lia)) as (x & -> & Hx & Gx). apply sret_eval with (P := fun y => y = x); [apply ret_ok; reflexivity|]. intros ? ->.
  eapply sret_eval with (P := fun z => z = true <-> a k = 0); [apply ret_ok; apply (eqb_values x (double_of_int 0) (a k) 0 Hx R_double_0)|].
  change (0 + k)%nat with k in *. change (1 + k)%nat with (S k). intros z Hz. destruct z.
  { apply sret_done. exists sb. split; [reflexivity|]. split; [|exact I2]. intros F. specialize (I1 F).
    unfold part, part_abs in *. cbn [Rsum]. rewrite (proj1 Hz eq_refl). replace (sgn k * (0 * r k)) with 0 by ring. rewrite Rabs_R0, Rmult_0_l, !Rplus_0_r.
    apply (within_mono (S K + (k - 1))); auto; [lia|]. apply Rsum_nonneg. intros i Hi. apply Rmult_le_pos; [apply Rabs_pos|apply T0; lia]. }
  destruct (Hmnr k ltac:(lia)) as (s & d & -> & Er & D1 & D2). cbn [bind]. rewrite Er. cbn [bind]. destruct (R_double_bin x _ Hx) as (xb & -> & Fx & Ex).
  change (mul double_ops (B2SF xb) (B2SF d)) with (@Ok spec_float (SFmul 53 1024 (B2SF xb) (B2SF d))). rewrite mul_equiv. cbn [bind].
  set (p := Bmult mode_NE xb d) in *. pose proof Hr as Hr0. specialize (Hr k ltac:(lia)). pose proof (T0 k ltac:(lia)) as Tk.
  assert (P1 : is_finite p = true -> within (S K) (e + m') p (a k * r k) (Rabs (a k) * t k)).
  { intros F. apply mult_within; auto. apply D1. apply (finite_mult _ _ F). }
  assert (P2 : big -> is_finite p = true /\ Rabs (B2R p) <= (1 + u) ^ (S K) * (b * T)).
  { intros HQ. pose proof HQ as [HB' Q]. destruct (HB HB') as [B1 B2]. destruct (B2 k ltac:(lia)) as [Ak Tt]. assert (F : is_finite p = true).
    { assert (Fd : is_finite d = true). { apply D2; auto. eapply Rle_trans; [|apply (Hbig HQ K 1); [lia|lra]]. apply Rmult_le_compat_l; [pose proof (pow_ge_1 K); lra|]. nra. }
      apply (mult_finite xb d ((1 + u) ^ K * (1 * (b * T)))); auto; [|apply (Hbig HQ); [lia|lra]]. rewrite Ex, Rabs_mult.
      replace ((1 + u) ^ K * (1 * (b * T))) with (b * ((1 + u) ^ K * T)) by ring. apply Rmult_le_compat; auto; try apply Rabs_pos.
      eapply Rle_trans; [apply (within_abs K m' d (r k) (t k)); auto|]. apply Rmult_le_compat_l; [pose proof (pow_ge_1 K); lra|exact Tt]. }
    split; [exact F|]. eapply Rle_trans; [apply (within_abs _ _ _ _ _ (P1 F))|].
    - rewrite Rabs_mult. apply Rmult_le_compat_l; [apply Rabs_pos|exact Hr].
    - apply Rmult_le_compat_l; [pose proof (pow_ge_1 (S K)); lra|]. apply Rmult_le_compat; auto; apply Rabs_pos. }
  assert (Step : forall q, (is_finite q = true -> within (S K) (e + m') q (sgn k * (a k * r k)) (Rabs (a k) * t k)) -> (big -> is_finite q = true /\ Rabs (B2R q) <= (1 + u) ^ (S K) * (b * T)) ->
    inv (S k) (Bplus mode_NE sb q)).
  { intros q Q1 Q2. split.
    - intros F. destruct (finite_plus _ _ F) as (Fs & Fq & E). specialize (I1 Fs). specialize (Q1 Fq). unfold part, part_abs in *. cbn [Rsum].
      assert (A1 : Rabs (part a r k) <= part_abs a t k). { apply part_le. intros i Hi. apply Hr0. lia. }
      assert (A2 : Rabs (sgn k * (a k * r k)) <= Rabs (a k) * t k). { rewrite !Rabs_mult, pow_1_abs, Rmult_1_l. apply Rmult_le_compat_l; [apply Rabs_pos|exact Hr]. }
      destruct k as [|k].
      + cbn [Rsum] in *. rewrite !Rplus_0_l. destruct I1 as [W _]. rewrite Rmult_0_r, Rminus_0_r in W. assert (Z : B2R sb = 0) by (destruct (Req_dec (B2R sb) 0) as [Z|Z]; [exact Z|apply Rabs_pos_lt in Z; lra]).
        rewrite Z, Rplus_0_l, rnd_format in E by apply generic_format_B2R. change (1 - 1)%nat with 0%nat. rewrite Nat.add_0_r. unfold within in *. rewrite E. exact Q1.
      + replace (S K + (S (S k) - 1))%nat with (S (S K + k)) by lia. apply plus_within; auto; [replace (S K + k)%nat with (S K + (S k - 1))%nat by lia; exact I1|].
        apply (within_mono (S K)); auto; [lia|]. apply Rmult_le_pos; [apply Rabs_pos|exact Tk].
    - intros HQ. destruct (Q2 HQ) as [Fq Aq]. specialize (I2 HQ). pose proof HQ as [HB' _]. destruct (HB HB') as [B1 B2]. pose proof (Hbt HQ) as BT.
      assert (KN : INR k + 1 <= INR n) by (rewrite <- S_INR; apply le_INR; lia). assert (K0 : 0 <= INR k) by apply pos_INR.
      apply (plus_finite sb q ((1 + u) ^ (K + n) * ((INR k + 1) * (b * T)))); auto; [|apply (Hbig HQ); [lia|lra]].
      eapply Rle_trans; [apply Rabs_triang|]. assert (As : Rabs (B2R sb) <= (1 + u) ^ (K + n) * (INR k * (b * T))).
      { eapply Rle_trans; [apply (within_abs _ _ _ _ _ (I1 I2)); apply part_le; intros i Hi; apply Hr0; lia|]. pose proof (pow_ge_1 (S K + (k - 1))).
        apply Rmult_le_compat; try lra; [apply Rsum_nonneg; intros i Hi; apply Rmult_le_pos; [apply Rabs_pos|apply T0; lia]|apply pow_mono; lia|].
        apply part_abs_bound; [lra|]. intros i Hi. destruct (B2 i ltac:(lia)). specialize (T0 i ltac:(lia)). auto. }
      assert (Aq' : (1 + u) ^ S K * (b * T) <= (1 + u) ^ (K + n) * (b * T)) by (apply Rmult_le_compat_r; [exact BT|apply pow_mono; lia]). lra. }
  pose proof (sgn_cases k) as Sg. destruct (k mod 2 =? 1)%nat.
  - change (subA double_ops (B2SF sb) (Some (B2SF p))) with (@Ok spec_float (dsub (B2SF sb) (B2SF p))). rewrite dsub_equiv, Bminus_opp. apply sret_eval with (P := fun y => y = B2SF (Bplus mode_NE sb (Bopp p))); [apply ret_ok; reflexivity|]. intros ? ->. apply sret_done.
    eexists. split; [reflexivity|]. apply Step; [rewrite is_finite_Bopp|rewrite is_finite_Bopp, B2R_Bopp, Rabs_Ropp; exact P2]. intros F. rewrite Sg. replace (-1 * (a k * r k)) with (- (a k * r k)) by ring. apply opp_within, P1, F.
  - change (addA double_ops (B2SF sb) (Some (B2SF p))) with (@Ok spec_float (SFadd 53 1024 (B2SF sb) (B2SF p))). rewrite add_equiv. apply sret_eval with (P := fun y => y = B2SF (Bplus mode_NE sb p)); [apply ret_ok; reflexivity|]. intros ? ->. apply sret_done.
    eexists. split; [reflexivity|]. apply Step; [|exact P2]. rewrite Sg, Rmult_1_l. exact P1.
Qed.

(** *** The two recursions *)
Local Notation bounded n g b := (forall i j, (i < n)%nat -> (j < n)%nat -> Rabs (g i j) <= b).
Definition size (n : nat) (b : R) : R := INR (fact n) * b ^ n.
Lemma size_S n b : size (S n) b = INR (S n) * (b * size n b).
Proof. unfold size. rewrite fact_simpl, mult_INR. cbn [pow]. ring. Qed.
Lemma without_lt n i j (g : nat -> nat -> R) (P : R -> Prop) : (forall a b, (a < S n)%nat -> (b < S n)%nat -> P (g a b)) -> forall a b, (a < n)%nat -> (b < n)%nat -> P (without i j g a b).
Proof. intros H a b Ha Hb. unfold without. apply H; destruct (_ <=? _)%nat; lia. Qed.
Lemma without_bounded n i j g b : bounded (S n) g b -> bounded n (without i j g) b.
Proof. intros H. apply (without_lt n i j g (fun r => Rabs r <= b)), H. Qed.
Lemma without_grid n i j g : (forall a b, (a < S n)%nat -> (b < S n)%nat -> grid e (g a b)) -> forall a b, (a < n)%nat -> (b < n)%nat -> grid e (without i j g a b).
Proof. intros H. apply (without_lt n i j g (grid e)), H. Qed.
Lemma Rperm_nonneg n : forall g, 0 <= Rperm n g.
Proof. induction n as [|n IH]; intros g; cbn [Rperm]; [lra|]. apply Rsum_nonneg. intros. apply Rmult_le_pos; [apply Rabs_pos|apply IH]. Qed.
Lemma Rperm_col_nonneg n : forall g, 0 <= Rperm_col n g.
Proof. induction n as [|n IH]; intros g; cbn [Rperm_col]; [lra|]. apply Rsum_nonneg. intros. apply Rmult_le_pos; [apply Rabs_pos|apply IH]. Qed.
Lemma Rdet_le n : forall g, Rabs (Rdet n g) <= Rperm n g.
Proof. induction n as [|n IH]; intros g; [cbn; rewrite Rabs_R1; lra|]. apply (part_le (fun j => g 0%nat j) (fun j => Rdet n (without 0 j g)) (fun j => Rperm n (without 0 j g)) (S n)). intros. apply IH. Qed.
Lemma Rdet_col_le n : forall g, Rabs (Rdet_col n g) <= Rperm_col n g.
Proof. induction n as [|n IH]; intros g; [cbn; rewrite Rabs_R1; lra|]. apply (part_le (fun i => g i 0%nat) (fun i => Rdet_col n (without i 0 g)) (fun i => Rperm_col n (without i 0 g)) (S n)). intros. apply IH. Qed.
Lemma Rperm_size n b : 0 <= b -> forall g, bounded n g b -> Rperm n g <= size n b.
Proof.
  intros Hb. induction n as [|n IH]; intros g Hg; [cbn; unfold size; cbn; lra|]. rewrite size_S. apply (part_abs_bound (fun j => g 0%nat j) (fun j => Rperm n (without 0 j g)) b (size n b) (S n) Hb).
  intros j Hj. split; [apply Hg; lia|]. split; [apply Rperm_nonneg|]. apply IH. apply without_bounded, Hg.
Qed.
Lemma Rperm_col_size n b : 0 <= b -> forall g, bounded n g b -> Rperm_col n g <= size n b.
Proof.
  intros Hb. induction n as [|n IH]; intros g Hg; [cbn; unfold size; cbn; lra|]. rewrite size_S. apply (part_abs_bound (fun i => g i 0%nat) (fun i => Rperm_col n (without i 0 g)) b (size n b) (S n) Hb).
  intros j Hj. split; [apply Hg; lia|]. split; [apply Rperm_col_nonneg|]. apply IH. apply without_bounded, Hg.
Qed.
Lemma det2_close m g : (2 * e <= 1074)%Z -> (forall i j, (i < 2)%nat -> (j < 2)%nat -> grid e (g i j)) -> mat_of R_double m 2 2 g ->
  exists d, det2 double_ops m = Ok (B2SF d) /\
    (is_finite d = true -> within 2 (e + e) d (g 0%nat 0%nat * g 1%nat 1%nat - g 0%nat 1%nat * g 1%nat 0%nat) (Rabs (g 0%nat 0%nat) * Rabs (g 1%nat 1%nat) + Rabs (g 0%nat 1%nat) * Rabs (g 1%nat 0%nat))) /\
    (forall b, 1 <= b -> bounded 2 g b -> (1 + u) ^ 2 * (2 * (b * b)) <= largest -> is_finite d = true).
Proof.
  intros L G Hm.
  assert (Rd : forall i j k, (i < 2)%nat -> (j < 2)%nat -> k = (i * 2 + j)%nat -> exists x : bin, read (data m) k = Ok (B2SF x) /\ is_finite x = true /\ B2R x = g i j).
  { intros i j k Hi Hj ->. destruct (ret_False _ _ (entry_of never R_double m 2 2 g i j Hm Hi Hj)) as (x & E & Hx). unfold entry, offset in E. destruct (mat_of_dims _ _ _ _ _ Hm) as (_ & Ec & _). rewrite Ec in E.
    destruct (R_double_bin x _ Hx) as (b & -> & F & Eb). eauto. }
  unfold det2. destruct (Rd 0%nat 0%nat 0%nat) as (x & -> & Fx & Ex); try lia. cbn [bind]. destruct (Rd 1%nat 1%nat 3%nat) as (y & -> & Fy & Ey); try lia. cbn [bind].
  change (mul double_ops (B2SF x) (B2SF y)) with (@Ok spec_float (SFmul 53 1024 (B2SF x) (B2SF y))). rewrite mul_equiv. cbn [bind].
  destruct (Rd 0%nat 1%nat 1%nat) as (z & -> & Fz & Ez); try lia. cbn [bind]. destruct (Rd 1%nat 0%nat 2%nat) as (w & -> & Fw & Ew); try lia. cbn [bind].
  change (mul double_ops (B2SF z) (B2SF w)) with (@Ok spec_float (SFmul 53 1024 (B2SF z) (B2SF w))). rewrite mul_equiv. cbn [bind].
  change (sub double_ops (B2SF (Bmult mode_NE x y)) (B2SF (Bmult mode_NE z w))) with (@Ok spec_float (dsub (B2SF (Bmult mode_NE x y)) (B2SF (Bmult mode_NE z w)))).
  rewrite dsub_equiv, Bminus_opp. eexists. split; [reflexivity|].
  assert (W : forall (x y : bin) i j k l, (i < 2)%nat -> (j < 2)%nat -> (k < 2)%nat -> (l < 2)%nat -> B2R x = g i j -> B2R y = g k l -> is_finite (Bmult mode_NE x y) = true ->
    within 1 (e + e) (Bmult mode_NE x y) (g i j * g k l) (Rabs (g i j) * Rabs (g k l))).
  { intros x' y' i j k l Hi Hj Hk Hl Ex' Ey' F. apply mult_within; auto; try lia; try apply Rle_refl. split; [|rewrite Ey'; apply G; auto]. cbn [pow]. rewrite Ey'. replace (g k l - g k l) with 0 by ring. rewrite Rabs_R0. lra. }
  split.
  - intros F. destruct (finite_plus _ _ F) as (F1 & F2 & _). rewrite is_finite_Bopp in F2. apply plus_within; [lia|exact F|apply (W x y 0 0 1 1)%nat; auto|apply opp_within, (W z w 0 1 1 0)%nat; auto| |].
    + rewrite Rabs_mult. lra.
    + rewrite Rabs_Ropp, Rabs_mult. lra.
  - intros b Hb Hg Q. assert (P : forall i j k l, (i < 2)%nat -> (j < 2)%nat -> (k < 2)%nat -> (l < 2)%nat -> Rabs (g i j) * Rabs (g k l) <= b * b) by (intros; apply Rmult_le_compat; auto; apply Rabs_pos).
    pose proof u_pos as U. assert (BB : 0 <= b * b) by nra. assert (U2 : 1 <= (1 + u) ^ 1 /\ (1 + u) ^ 1 <= (1 + u) ^ 2) by (split; [apply pow_ge_1|apply pow_mono; lia]).
    assert (F : forall (x y : bin) i j k l, (i < 2)%nat -> (j < 2)%nat -> (k < 2)%nat -> (l < 2)%nat -> B2R x = g i j -> B2R y = g k l -> is_finite x = true -> is_finite y = true ->
      is_finite (Bmult mode_NE x y) = true /\ Rabs (B2R (Bmult mode_NE x y)) <= (1 + u) ^ 1 * (b * b)).
    { intros x' y' i j k l Hi Hj Hk Hl Ex' Ey' Fx' Fy'. assert (F : is_finite (Bmult mode_NE x' y') = true).
      { apply (mult_finite x' y' (b * b)); auto; [rewrite Ex', Ey', Rabs_mult; apply P; auto|]. nra. }
      split; [exact F|]. eapply Rle_trans; [apply (within_abs _ _ _ _ _ (W x' y' i j k l Hi Hj Hk Hl Ex' Ey' F)); rewrite Rabs_mult; lra|]. apply Rmult_le_compat_l; [lra|apply P; auto]. }
    destruct (F x y 0 0 1 1)%nat as [F1 A1]; auto. destruct (F z w 0 1 1 0)%nat as [F2 A2]; auto.
    apply (plus_finite _ _ ((1 + u) ^ 2 * (2 * (b * b)))); auto; [rewrite is_finite_Bopp; exact F2|]. rewrite B2R_Bopp. eapply Rle_trans; [apply Rabs_triang|]. rewrite Rabs_Ropp. nra.
Qed.
Lemma minor_mat m n g i j : mat_of R_double m (S n) (S n) g -> exists s, first_minor double_ops m i j = Ok s /\ mat_of R_double s n n (without i j g).
Proof.
  intros Hm. destruct (ret_False _ _ (first_minor_ok double_ops never R_double m (S n) (S n) g i j Hm ltac:(lia) ltac:(lia))) as (s & E & Hs). exists s. split; [exact E|].
  replace (S n - 1)%nat with n in Hs by lia. eapply mat_of_ext; [exact Hs|]. intros a b _ _. cbn beta. unfold without, skip. rewrite !Nat.add_1_r. reflexivity.
Qed.
Lemma row_close fuel : forall n m g, (1 <= n < fuel)%nat -> (Z.of_nat n * e <= 1074)%Z -> mat_of R_double m n n g -> (forall i j, (i < n)%nat -> (j < n)%nat -> grid e (g i j)) ->
  exists d, row_expansion double_ops fuel m = Ok (B2SF d) /\ (is_finite d = true -> within (roundings n) (Z.of_nat n * e) d (Rdet n g) (Rperm n g)) /\
    (forall b, 1 <= b -> bounded n g b -> (1 + u) ^ roundings n * size n b <= largest -> is_finite d = true).
Proof.
  induction fuel as [|fuel IH]; intros n m g Hn L Hm G; [lia|]. destruct (mat_of_dims _ _ _ _ _ Hm) as (Dr & Dc & _).
  destruct n as [|[|[|n]]]; [lia| | |].
  - cbn [row_expansion]. unfold expansion. rewrite Dr, Dc. cbn [Nat.eqb negb].
    destruct (ret_False _ _ (entry_of never R_double m 1 1 g 0 0 Hm ltac:(lia) ltac:(lia))) as (x & E & Hx). unfold entry, offset in E. rewrite Dc in E. change (0 * 1 + 0)%nat with 0%nat in E. rewrite E.
    destruct (R_double_bin x _ Hx) as (b & -> & F & Eb). exists b. split; [reflexivity|]. split; [|auto]. intros _. cbn [Rdet Rperm Rsum roundings pow]. unfold within. rewrite Eb. cbn [pow]. split; [|apply (grid_finer e); [lia|apply G; lia]].
    replace (g 0%nat 0%nat - (0 + 1 * (g 0%nat 0%nat * 1))) with 0 by ring. rewrite Rabs_R0. lra.
  - cbn [row_expansion]. unfold expansion. rewrite Dr, Dc. cbn [Nat.eqb negb].
    destruct (det2_close m g ltac:(lia) G Hm) as (d & E & D1 & D2). exists d. split; [exact E|]. split.
    + intros F. specialize (D1 F). replace (Z.of_nat 2 * e)%Z with (e + e)%Z by lia. change (roundings 2) with 2%nat.
      replace (Rdet 2 g) with (g 0%nat 0%nat * g 1%nat 1%nat - g 0%nat 1%nat * g 1%nat 0%nat) by (cbn [Rdet Rsum pow]; unfold without; cbn; ring).
      replace (Rperm 2 g) with (Rabs (g 0%nat 0%nat) * Rabs (g 1%nat 1%nat) + Rabs (g 0%nat 1%nat) * Rabs (g 1%nat 0%nat)) by (cbn [Rperm Rsum pow]; unfold without; cbn; ring). exact D1.
    + intros b Hb Hg Q. apply (D2 b Hb Hg). replace (2 * (b * b)) with (size 2 b) by (unfold size; cbn; ring). exact Q.
  - set (k := S (S n)) in *.
    assert (Sub : forall j, exists s d, first_minor double_ops m 0 j = Ok s /\ row_expansion double_ops fuel s = Ok (B2SF d) /\
      (is_finite d = true -> within (roundings k) (Z.of_nat k * e) d (Rdet k (without 0 j g)) (Rperm k (without 0 j g))) /\
      (forall b, 1 <= b -> bounded k (without 0 j g) b -> (1 + u) ^ roundings k * size k b <= largest -> is_finite d = true)).
    { intros j. destruct (minor_mat m k g 0 j Hm) as (s & Es & Hs). destruct (IH k s (without 0 j g)) as (d & Ed & D1 & D2); [lia|nia|exact Hs|apply without_grid, G|]. exists s, d. auto. }
    assert (X : forall b (B : Prop), (B -> 1 <= b /\ bounded (S k) g b) -> exists d, row_expansion double_ops (S fuel) m = Ok (B2SF d) /\
      (is_finite d = true -> within (roundings (S k)) (Z.of_nat (S k) * e) d (Rdet (S k) g) (Rperm (S k) g)) /\ (B -> (1 + u) ^ roundings (S k) * size (S k) b <= largest -> is_finite d = true)).
    { intros b B HB. cbn [row_expansion]. rewrite Dc, size_S. change (roundings (S k)) with (roundings k + S k)%nat. replace (Z.of_nat (S k) * e)%Z with (e + Z.of_nat k * e)%Z by lia.
      apply (expansion_close m (S k) g _ _ _ (fun j => g 0%nat j) (fun j => Rdet k (without 0 j g)) (fun j => Rperm k (without 0 j g)) (roundings k) (Z.of_nat k * e) B b (size k b) Hm ltac:(lia) ltac:(lia)).
      - intros j Hj. destruct (ret_False _ _ (entry_of never R_double m (S k) (S k) g 0 j Hm ltac:(lia) Hj)) as (x & E & Hx). exists x. split; [exact E|]. split; [exact Hx|apply G; lia].
      - intros j Hj. destruct (Sub j) as (s & d & Es & Ed & D1 & D2). exists s, d. split; [exact Es|]. split; [exact Ed|]. split; [exact D1|]. intros HB' Q. destruct (HB HB') as [B1 B2]. apply (D2 b B1); auto. apply without_bounded, B2.
      - intros j Hj. apply Rdet_le.
      - intros HB'. destruct (HB HB') as [B1 B2]. split; [exact B1|]. intros j Hj. split; [apply B2; lia|]. apply Rperm_size; [lra|]. apply without_bounded, B2. }
    destruct (X 0 False ltac:(contradiction)) as (d & Ed & D1 & _). exists d. split; [exact Ed|]. split; [exact D1|]. intros b Hb Hg Q.
    destruct (X b True ltac:(auto)) as (d' & Ed' & _ & D2). rewrite Ed in Ed'. injection Ed' as Ed'. apply B2SF_inj in Ed'. subst d'. apply D2; auto.
Qed.
Lemma col_close fuel : forall n m g, (1 <= n < fuel)%nat -> (Z.of_nat n * e <= 1074)%Z -> mat_of R_double m n n g -> (forall i j, (i < n)%nat -> (j < n)%nat -> grid e (g i j)) ->
  exists d, col_expansion double_ops fuel m = Ok (B2SF d) /\ (is_finite d = true -> within (roundings n) (Z.of_nat n * e) d (Rdet_col n g) (Rperm_col n g)) /\
    (forall b, 1 <= b -> bounded n g b -> (1 + u) ^ roundings n * size n b <= largest -> is_finite d = true).
Proof.
  induction fuel as [|fuel IH]; intros n m g Hn L Hm G; [lia|]. destruct (mat_of_dims _ _ _ _ _ Hm) as (Dr & Dc & _).
  destruct n as [|[|[|n]]]; [lia| | |].
  - cbn [col_expansion]. unfold expansion. rewrite Dr, Dc. cbn [Nat.eqb negb].
    destruct (ret_False _ _ (entry_of never R_double m 1 1 g 0 0 Hm ltac:(lia) ltac:(lia))) as (x & E & Hx). unfold entry, offset in E. rewrite Dc in E. change (0 * 1 + 0)%nat with 0%nat in E. rewrite E.
    destruct (R_double_bin x _ Hx) as (b & -> & F & Eb). exists b. split; [reflexivity|]. split; [|auto]. intros _. cbn [Rdet_col Rperm_col Rsum roundings pow]. unfold within. rewrite Eb. cbn [pow]. split; [|apply (grid_finer e); [lia|apply G; lia]].
    replace (g 0%nat 0%nat - (0 + 1 * (g 0%nat 0%nat * 1))) with 0 by ring. rewrite Rabs_R0. lra.
  - cbn [col_expansion]. unfold expansion. rewrite Dr, Dc. cbn [Nat.eqb negb].
    destruct (det2_close m g ltac:(lia) G Hm) as (d & E & D1 & D2). exists d. split; [exact E|]. split.
    + intros F. specialize (D1 F). replace (Z.of_nat 2 * e)%Z with (e + e)%Z by lia. change (roundings 2) with 2%nat.
      replace (Rdet_col 2 g) with (g 0%nat 0%nat * g 1%nat 1%nat - g 0%nat 1%nat * g 1%nat 0%nat) by (cbn [Rdet_col Rsum pow]; unfold without; cbn; ring).
      replace (Rperm_col 2 g) with (Rabs (g 0%nat 0%nat) * Rabs (g 1%nat 1%nat) + Rabs (g 0%nat 1%nat) * Rabs (g 1%nat 0%nat)) by (cbn [Rperm_col Rsum pow]; unfold without; cbn; ring). exact D1.
    + intros b Hb Hg Q. apply (D2 b Hb Hg). replace (2 * (b * b)) with (size 2 b) by (unfold size; cbn; ring). exact Q.
  - set (k := S (S n)) in *.
    assert (Sub : forall j, exists s d, first_minor double_ops m j 0 = Ok s /\ col_expansion double_ops fuel s = Ok (B2SF d) /\
      (is_finite d = true -> within (roundings k) (Z.of_nat k * e) d (Rdet_col k (without j 0 g)) (Rperm_col k (without j 0 g))) /\
      (forall b, 1 <= b -> bounded k (without j 0 g) b -> (1 + u) ^ roundings k * size k b <= largest -> is_finite d = true)).
    { intros j. destruct (minor_mat m k g j 0 Hm) as (s & Es & Hs). destruct (IH k s (without j 0 g)) as (d & Ed & D1 & D2); [lia|nia|exact Hs|apply without_grid, G|]. exists s, d. auto. }
    assert (X : forall b (B : Prop), (B -> 1 <= b /\ bounded (S k) g b) -> exists d, col_expansion double_ops (S fuel) m = Ok (B2SF d) /\
      (is_finite d = true -> within (roundings (S k)) (Z.of_nat (S k) * e) d (Rdet_col (S k) g) (Rperm_col (S k) g)) /\ (B -> (1 + u) ^ roundings (S k) * size (S k) b <= largest -> is_finite d = true)).
    { intros b B HB. cbn [col_expansion]. rewrite Dr, size_S. change (roundings (S k)) with (roundings k + S k)%nat. replace (Z.of_nat (S k) * e)%Z with (e + Z.of_nat k * e)%Z by lia.
      apply (expansion_close m (S k) g _ _ _ (fun j => g j 0%nat) (fun j => Rdet_col k (without j 0 g)) (fun j => Rperm_col k (without j 0 g)) (roundings k) (Z.of_nat k * e) B b (size k b) Hm ltac:(lia) ltac:(lia)).
      - intros j Hj. destruct (ret_False _ _ (entry_of never R_double m (S k) (S k) g j 0 Hm Hj ltac:(lia))) as (x & E & Hx). exists x. split; [exact E|]. split; [exact Hx|apply G; lia].
      - intros j Hj. destruct (Sub j) as (s & d & Es & Ed & D1 & D2). exists s, d. split; [exact Es|]. split; [exact Ed|]. split; [exact D1|]. intros HB' Q. destruct (HB HB') as [B1 B2]. apply (D2 b B1); auto. apply without_bounded, B2.
      - intros j Hj. apply Rdet_col_le.
      - intros HB'. destruct (HB HB') as [B1 B2]. split; [exact B1|]. intros j Hj. split; [apply B2; lia|]. apply Rperm_col_size; [lra|]. apply without_bounded, B2. }
    destruct (X 0 False ltac:(contradiction)) as (d & Ed & D1 & _). exists d. split; [exact Ed|]. split; [exact D1|]. intros b Hb Hg Q.
    destruct (X b True ltac:(auto)) as (d' & Ed' & _ & D2). rewrite Ed in Ed'. injection Ed' as Ed'. apply B2SF_inj in Ed'. subst d'. apply D2; auto.
Qed.
End Close.

Lemma row_cofactor_close n e m g : (1 <= n)%nat -> mat_of R_double m n n g -> coarse n e g ->
  exists d, row_cofactor_expansion double_ops m = Ok d /\ det_close n d (Rdet n g) (Rperm n g) /\ forall b, det_fits n b -> at_most n b g -> finite d.
Proof.
  intros Hn Hm [L G]. unfold row_cofactor_expansion. destruct (mat_of_dims _ _ _ _ _ Hm) as (-> & _). destruct (row_close e (S n) n m g ltac:(lia) L Hm G) as (d & E & D1 & D2).
  exists (B2SF d). split; [exact E|]. split; [split; [apply double_bin|]|].
  - intros F. apply finite_equiv in F. rewrite dR_bin. apply (D1 F).
  - intros b [B1 B2] Hb. apply finite_equiv, (D2 b); auto.
Qed.
Lemma col_cofactor_close n e m g : (1 <= n)%nat -> mat_of R_double m n n g -> coarse n e g ->
  exists d, col_cofactor_expansion double_ops m = Ok d /\ det_close n d (Rdet_col n g) (Rperm_col n g) /\ forall b, det_fits n b -> at_most n b g -> finite d.
Proof.
  intros Hn Hm [L G]. unfold col_cofactor_expansion. destruct (mat_of_dims _ _ _ _ _ Hm) as (-> & _). destruct (col_close e (S n) n m g ltac:(lia) L Hm G) as (d & E & D1 & D2).
  exists (B2SF d). split; [exact E|]. split; [split; [apply double_bin|]|].
  - intros F. apply finite_equiv in F. rewrite dR_bin. apply (D1 F).
  - intros b [B1 B2] Hb. apply finite_equiv, (D2 b); auto.
Qed.
(** which doubles are multiples of 2^-e *)
Lemma grid_large e d : double d -> finite d -> (dR d = 0 \/ powerRZ 2 (52 - e) <= Rabs (dR d)) -> grid e (dR d).
Proof.
  intros Dd F [->|H]; [apply grid_0|]. destruct (lift_finite d Dd F) as (b & <- & Fb). rewrite dR_bin in *. change 2 with (IZR radix2) in H. rewrite <- bpow_powerRZ in H.
  destruct b as [s|s| |s m ex B]; try discriminate Fb; [apply grid_0|]. cbn [B2R] in *.
  apply (grid_finer (- ex)); [|apply grid_F2R; eexists; rewrite Z.opp_involutive; reflexivity].
  assert (M : (Z.pos m < 2 ^ 53)%Z). { destruct (andb_prop _ _ B) as [C _]. unfold canonical_mantissa in C. apply Zeq_bool_eq in C. unfold fexp, SpecFloat.fexp in C. rewrite Digits.Zpos_digits2_pos in C.
    pose proof (Digits.Zdigits_correct radix2 (Z.pos m)) as [_ U]. rewrite Z.abs_eq in U by lia. eapply Z.lt_le_trans; [exact U|]. change (2 ^ 53)%Z with (Zpower radix2 53). apply Zpower_le. lia. }
  rewrite <- F2R_Zabs in H. rewrite abs_cond_Zopp in H. assert (LT : bpow radix2 (52 - e) < bpow radix2 (53 + ex)).
  { eapply Rle_lt_trans; [exact H|]. unfold F2R. cbn [Fnum Fexp Z.abs]. rewrite bpow_plus. apply Rmult_lt_compat_r; [apply bpow_gt_0|]. change (bpow radix2 53) with (IZR (2 ^ 53)). apply IZR_lt, M. }
  apply lt_bpow in LT. lia.
Qed.

(** *** The same over the rationals *)
Fixpoint Qsum (n : nat) (f : nat -> Q) : Q := match n with O => 0%Q | S k => (Qsum k f + f k)%Q end.
Fixpoint Qsign (k : nat) : Q := match k with O => 1%Q | S k => (- Qsign k)%Q end.
Fixpoint Qdet (n : nat) (g : nat -> nat -> Q) : Q :=
  match n with O => 1%Q | S k => Qsum n (fun j => Qsign j * (g O j * Qdet k (without 0 j g)))%Q end.
Fixpoint Qdet_col (n : nat) (g : nat -> nat -> Q) : Q :=
  match n with O => 1%Q | S k => Qsum n (fun i => Qsign i * (g i O * Qdet_col k (without i 0 g)))%Q end.
Lemma Q2R_sum n f : Q2R (Qsum n f) = Rsum n (fun i => Q2R (f i)).
Proof. induction n as [|n IH]; cbn [Qsum Rsum]; [unfold Q2R; cbn; lra|]. rewrite Q2R_plus, IH. reflexivity. Qed.
Lemma Q2R_sign k : Q2R (Qsign k) = (-1) ^ k.
Proof. induction k as [|k IH]; cbn [Qsign pow]; [unfold Q2R; cbn; lra|]. rewrite Q2R_opp, IH. ring. Qed.
Lemma Q2R_det n : forall g, Q2R (Qdet n g) = Rdet n (fun i j => Q2R (g i j)).
Proof.
  induction n as [|n IH]; intros g; [unfold Q2R; cbn; lra|]. cbn [Qdet Rdet]. rewrite Q2R_sum. apply Rsum_ext. intros j _. rewrite !Q2R_mult, Q2R_sign, IH. reflexivity.
Qed.
Lemma Q2R_det_col n : forall g, Q2R (Qdet_col n g) = Rdet_col n (fun i j => Q2R (g i j)).
Proof.
  induction n as [|n IH]; intros g; [unfold Q2R; cbn; lra|]. cbn [Qdet_col Rdet_col]. rewrite Q2R_sum. apply Rsum_ext. intros j _. rewrite !Q2R_mult, Q2R_sign, IH. reflexivity.
Qed.
