(** Lemmas about Frac::from_double. *)
From Coq Require Import QArith Qfield Qabs Qpower.
From Coq Require Import Ascii String SpecFloat.
From Verif Require Import Base IntModel IntSpec IntBasics IntAddSub IntMul IntDiv IntMod IntScale.
From Verif Require Import IOModel IOSpec IOProofs FracModel FracSpec FracProofs FracIO.
From Coq Require Import ZifyBool.
Local Open Scope Z_scope.
Local Open Scope list_scope.

(** *** The text *)
Lemma dec_Z_ok f : forall z, 0 <= z < p10 f -> (0 < f)%nat ->
  digits (dec_Z f z) /\ nv 0 (dec_Z f z) = z /\ dec_Z f z <> [].
Proof.
  induction f as [|f IH]; intros z Hz Hf; [lia|]. cbn [dec_Z].
  destruct (Z.ltb_spec z 10).
  - destruct (isdigit_digit_char z) as [H1 H2]; [lia|]. splits; [constructor; [exact H1|constructor]| |discriminate].
    unfold nv. cbn [fold_left]. lia.
  - destruct f as [|f].
    { rewrite p10_S in Hz. change (p10 0) with 1 in Hz. lia. }
    rewrite p10_S in Hz.
    destruct (IH (z / 10)) as (H1 & H2 & H3); [split; ldiv|lia|].
    destruct (isdigit_digit_char (z mod 10)) as [H4 H5]; [ldiv|].
    splits.
    + apply Forall_app. split; auto.
    + rewrite nv_app, H2. unfold nv. cbn [fold_left]. rewrite H5. ldiv.
    + destruct (dec_Z (S f) (z / 10)); discriminate.
Qed.
Lemma dec_nonneg_ok z : 0 <= z -> digits (dec_nonneg z) /\ nv 0 (dec_nonneg z) = z /\ dec_nonneg z <> [].
Proof.
  intros Hz. unfold dec_nonneg. apply dec_Z_ok; [|lia]. split; auto. unfold p10.
  rewrite Nat2Z.inj_succ, Z2Nat.id by apply Z.log2_nonneg.
  destruct (Z.eq_dec z 0) as [->|E]; [reflexivity|].
  apply Z.lt_le_trans with (2 ^ Z.succ (Z.log2 z)); [apply Z.log2_spec; lia|].
  apply Z.pow_le_mono_l. lia.
Qed.

Lemma find_dot_digits a : forall r, (forall c, In c a -> c <> DOT) -> find_dot (a ++ DOT :: r) = Some (a, r).
Proof.
  induction a as [|c a IH]; intros r H; cbn [app find_dot].
  - rewrite Ascii.eqb_refl. reflexivity.
  - destruct (Ascii.eqb_spec c DOT); [exfalso; apply (H c); [left; reflexivity|assumption]|].
    rewrite IH; [reflexivity|]. intros c' Hc. apply H. right. exact Hc.
Qed.

Lemma fixed_magnitude_ok n p : 0 <= n -> 1 <= p -> exists l r, fixed_magnitude n p = l ++ DOT :: r /\
  digits l /\ digits r /\ l <> [] /\ Z.of_nat (length r) = p /\ nv 0 (l ++ r) = n.
Proof.
  intros Hn Hp. unfold fixed_magnitude. destruct (Z.eqb_spec p 0); [lia|].
  destruct (dec_nonneg_ok n Hn) as (D & V & N).
  set (s := pad_zeros (S (Z.to_nat p)) (dec_nonneg n)).
  assert (Ds : digits s) by (apply Forall_app; split; [apply repeat_zero_digits|exact D]).
  assert (Vs : nv 0 s = n) by (unfold s, pad_zeros; rewrite nv_app, (proj2 (repeat_zero_digits _)); exact V).
  assert (Ls : (S (Z.to_nat p) <= length s)%nat) by (unfold s, pad_zeros; rewrite app_length, repeat_length; lia).
  exists (firstn (length s - Z.to_nat p) s), (skipn (length s - Z.to_nat p) s). splits.
  - reflexivity.
  - apply Forall_firstn_. exact Ds.
  - apply Forall_skipn_. exact Ds.
  - intros E. apply (f_equal (@length ascii)) in E. rewrite firstn_length_le in E by lia. cbn [length] in E. lia.
  - rewrite skipn_length. lia.
  - rewrite firstn_skipn. exact Vs.
Qed.

Definition sign_text (s : bool) : chars := if s then [MINUS] else [].
Lemma find_dot_fixed s n p : 0 <= n -> 1 <= p -> exists l r, find_dot (sign_text s ++ fixed_magnitude n p) = Some (l, r) /\
  Z.of_nat (length r) = p /\ int_text (l ++ r) (if s then - n else n).
Proof.
  intros Hn Hp. destruct (fixed_magnitude_ok n p Hn Hp) as (l & r & E & Dl & Dr & Nl & Lr & V).
  rewrite E, app_assoc. exists (sign_text s ++ l), r. splits; auto.
  - apply find_dot_digits. intros c Hc ->. apply in_app_or in Hc as [Hc|Hc].
    + destruct s; cbn in Hc; [destruct Hc as [Hc|[]]; discriminate|contradiction].
    + unfold digits in Dl. rewrite Forall_forall in Dl. specialize (Dl _ Hc). discriminate.
  - assert (Nu : numeral (l ++ r) n).
    { apply numeral_iff. splits; [destruct l; [congruence|discriminate]|apply Forall_app; auto|auto]. }
    destruct s; cbn [sign_text app]; [apply it_neg|apply it_pos]; exact Nu.
Qed.

(** *** Rounding *)
Lemma Qabs_ratio_le a d : 0 < d -> (Qabs (ratio a d) <= 1 # 2)%Q <-> 2 * Z.abs a <= d.
Proof.
  intros Hd. unfold ratio.
  assert (E : (Qabs (inject_Z a / inject_Z d) == inject_Z (Z.abs a) / inject_Z d)%Q).
  { unfold Qdiv. rewrite Qabs_Qmult, (Qabs_pos (/ inject_Z d)); [reflexivity|].
    apply Qinv_le_0_compat. change 0%Q with (inject_Z 0). rewrite <- Zle_Qle. lia. }
  rewrite E. assert (Pd : (0 < inject_Z d)%Q) by (change 0%Q with (inject_Z 0); rewrite <- Zlt_Qlt; assumption).
  split; intros H.
  - apply (Qmult_le_r _ _ (inject_Z d)) in H; [|assumption].
    assert (E1 : (inject_Z (Z.abs a) / inject_Z d * inject_Z d == inject_Z (Z.abs a))%Q) by (field; auto with zarith).
    rewrite E1 in H. unfold Qle in H. cbn in H. lia.
  - apply (Qmult_le_r _ _ (inject_Z d)); [assumption|].
    assert (E1 : (inject_Z (Z.abs a) / inject_Z d * inject_Z d == inject_Z (Z.abs a))%Q) by (field; auto with zarith).
    rewrite E1. unfold Qle. cbn. lia.
Qed.
Lemma Qabs_ratio_half a d : 0 < d -> (Qabs (ratio a d) == 1 # 2)%Q -> 2 * Z.abs a = d.
Proof.
  intros Hd H.
  assert (2 * Z.abs a <= d) by (apply Qabs_ratio_le; auto; rewrite H; apply Qle_refl).
  assert (E : (Qabs (inject_Z a / inject_Z d) == inject_Z (Z.abs a) / inject_Z d)%Q).
  { unfold Qdiv. rewrite Qabs_Qmult, (Qabs_pos (/ inject_Z d)); [reflexivity|].
    apply Qinv_le_0_compat. change 0%Q with (inject_Z 0). rewrite <- Zle_Qle. lia. }
  unfold ratio in H. rewrite E in H.
  assert (E1 : (inject_Z (Z.abs a) == (1 # 2) * inject_Z d)%Q) by (rewrite <- H; field; auto with zarith).
  unfold Qeq in E1. cbn in E1. lia.
Qed.

Lemma ratio_minus n d N : 0 < d -> (ratio n d - inject_Z N == ratio (n - N * d) d)%Q.
Proof.
  intros Hd. unfold ratio. unfold Z.sub. rewrite inject_Z_plus, inject_Z_opp, inject_Z_mult. field. auto with zarith.
Qed.
Lemma round_half_even_ok n d : 0 <= n -> 0 < d -> nearest_even (ratio n d) (round_half_even n d).
Proof.
  intros Hn Hd. unfold nearest_even. rewrite ratio_minus by assumption. rewrite Qabs_ratio_le by assumption.
  pose proof (Z.div_mod n d ltac:(lia)) as DM. pose proof (Z.mod_pos_bound n d Hd) as MB.
  unfold round_half_even.
  destruct (Z.ltb_spec (2 * (n mod d)) d); [|destruct (Z.ltb_spec d (2 * (n mod d))); [|destruct (Z.even (n / d)) eqn:Ev]].
  - split; [nia|]. intros E. apply Qabs_ratio_half in E; [nia|assumption].
  - split; [nia|]. intros E. apply Qabs_ratio_half in E; [nia|assumption].
  - split; [nia|auto].
  - split; [nia|]. intros _. rewrite Z.add_1_r, Z.even_succ, <- Z.negb_even, Ev. reflexivity.
Qed.
Lemma nearest_even_int n : nearest_even (inject_Z n) n.
Proof.
  unfold nearest_even. assert (E : (inject_Z n - inject_Z n == 0)%Q) by ring. rewrite E. split; [discriminate|].
  intros H. discriminate.
Qed.
Lemma nearest_even_eq q q' n : (q == q')%Q -> nearest_even q n -> nearest_even q' n.
Proof. unfold nearest_even. intros E [H1 H2]. rewrite E in H1. split; [exact H1|]. intros H. apply H2. rewrite E. exact H. Qed.
Lemma nearest_even_opp q n : nearest_even q n -> nearest_even (- q) (- n).
Proof.
  unfold nearest_even. rewrite inject_Z_opp. intros [H1 H2].
  assert (E : (Qabs (- q - - inject_Z n) == Qabs (q - inject_Z n))%Q).
  { rewrite <- Qabs_opp. apply Qabs_wd. ring. }
  rewrite E. split; auto. rewrite Z.even_opp. auto.
Qed.
Lemma Qpow2_nonneg e : 0 <= e -> ((2 # 1) ^ e == inject_Z (2 ^ e))%Q.
Proof. intros He. symmetry. apply (inject_Z_pow 2 e He). Qed.
Lemma scaled_nonneg m e p : 0 <= m -> 0 <= p -> 0 <= scaled m e p.
Proof.
  intros Hm Hp. assert (0 < 10 ^ p) by (apply Z.pow_pos_nonneg; lia). unfold scaled.
  destruct (Z.leb_spec 0 e).
  - assert (0 < 2 ^ e) by (apply Z.pow_pos_nonneg; lia). nia.
  - assert (0 < 2 ^ (- e)) by (apply Z.pow_pos_nonneg; lia).
    assert (0 <= m * 10 ^ p / 2 ^ (- e)) by (apply Z.div_pos; nia).
    unfold round_half_even. destruct (_ <? _); [lia|]. destruct (_ <? _); [lia|]. destruct (Z.even _); lia.
Qed.
Lemma scaled_ok m e p : 0 <= p -> 0 <= m -> nearest_even (inject_Z m * (2 # 1) ^ e * inject_Z (10 ^ p)) (scaled m e p).
Proof.
  intros Hp Hm. assert (0 < 10 ^ p) by (apply Z.pow_pos_nonneg; lia). unfold scaled.
  destruct (Z.leb_spec 0 e) as [He|He].
  - eapply nearest_even_eq; [|apply nearest_even_int]. rewrite !inject_Z_mult, Qpow2_nonneg by assumption. reflexivity.
  - assert (0 < 2 ^ (- e)) by (apply Z.pow_pos_nonneg; lia).
    eapply nearest_even_eq; [|apply round_half_even_ok; nia].
    unfold ratio. rewrite inject_Z_mult, <- Qpow2_nonneg by lia.
    rewrite Qpower_opp. field. apply Qpower_not_0. discriminate.
Qed.

(** *** The conversion *)
Lemma SFeqb_refl x : finite x -> SFeqb x x = true.
Proof.
  destruct x as [s| | |s m e]; cbn [finite]; try contradiction; intros _; [reflexivity|].
  unfold SFeqb, SFcompare. rewrite Z.compare_refl.
  change (Pos.compare_cont Eq m m) with (Pos.compare m m). rewrite Pos.compare_refl. destruct s; reflexivity.
Qed.
Lemma isFinite_spec x : isFinite x = true <-> finite x.
Proof.
  split.
  - destruct x as [s|s| |s m e]; cbn [finite]; auto; try discriminate. destruct s; discriminate.
  - intros F. unfold isFinite. rewrite SFeqb_refl by assumption.
    destruct x as [s|s| |s m e]; try contradiction; destruct s; reflexivity.
Qed.

Lemma power_ten p : 1 <= p -> exists b, times_power_ten one p = Ok b /\ canonical b /\ val b = 10 ^ p.
Proof.
  intros Hp. destruct (tpt_pos one p) as (r & H1 & H2 & H3 & H4 & H5); [apply canonical_wf, one_canonical|lia|].
  change (val one) with 1 in H3. rewrite Z.mul_1_l in H3. exists r. splits; auto. destruct r as [l n]. cbn [bins negative] in *.
  apply mk_canonical; [apply H2| |].
  - apply H5; [apply canonical_trimmed, one_canonical|]. left. discriminate.
  - rewrite H4. discriminate.
Qed.

Lemma from_double_fixed x p n s : finite x -> 1 <= p -> 0 <= n -> fixed_text x p = sign_text s ++ fixed_magnitude n p ->
  makes (from_double x p) (if s then - n else n) (10 ^ p).
Proof.
  intros F Hp Hn E. unfold from_double, stream_precision. destruct (Z.ltb_spec p 0); [lia|]. rewrite (proj2 (isFinite_spec x) F). cbn [negb]. rewrite E.
  destruct (find_dot_fixed s n p Hn Hp) as (l & r & Ed & Lr & Ht). rewrite Ed, Lr.
  destruct (Int_of_string_ok _ _ Ht) as (t & Et & Ct & Vt). rewrite Et. cbn [bind].
  rewrite int1_ok. cbn [bind]. replace (1 + p - 1) with p by lia.
  destruct (power_ten p Hp) as (b & Eb & Cb & Vb). rewrite Eb. cbn [bind].
  rewrite <- Vt, <- Vb. apply Frac_make_makes; auto.
Qed.

Lemma from_double_ok x p : finite x -> 1 <= p ->
  exists n, nearest_even (dval x * inject_Z (10 ^ p)) n /\ makes (from_double x p) n (10 ^ p).
Proof.
  intros F Hp. destruct x as [s|s| |s m e]; cbn [finite] in F; try contradiction.
  - exists 0. split.
    + eapply nearest_even_eq; [|apply (nearest_even_int 0)]. cbn [dval]. ring.
    + pose proof (from_double_fixed (S754_zero s) p 0 s I Hp ltac:(lia) eq_refl) as H. destruct s; exact H.
  - assert (N0 : 0 <= scaled (Zpos m) e p) by (apply scaled_nonneg; lia).
    exists (if s then - scaled (Zpos m) e p else scaled (Zpos m) e p). split.
    + pose proof (scaled_ok (Zpos m) e p ltac:(lia) ltac:(lia)) as H. cbn [dval]. destruct s; [|exact H].
      eapply nearest_even_eq; [|apply nearest_even_opp; exact H].
      change (Zneg m) with (- Zpos m). rewrite inject_Z_opp. ring.
    + apply (from_double_fixed (S754_finite s m e) p _ s I Hp N0 eq_refl).
Qed.
Lemma from_double_not_finite x p : ~ finite x -> from_double x p = Throw InvalidArgument.
Proof.
  intros F. unfold from_double. destruct (isFinite x) eqn:E; [apply isFinite_spec in E; contradiction|reflexivity].
Qed.
Lemma fixed_magnitude_0 n c : 0 <= n -> In c (fixed_magnitude n 0) -> isdigit c = true.
Proof.
  intros Hn H. unfold fixed_magnitude in H. cbn [Z.eqb] in H.
  destruct (dec_nonneg_ok n Hn) as (D & _).
  assert (Ds : digits (pad_zeros (S (Z.to_nat 0)) (dec_nonneg n))) by (apply Forall_app; split; [apply repeat_zero_digits|exact D]).
  unfold digits in Ds. rewrite Forall_forall in Ds. apply Ds, H.
Qed.
Lemma find_dot_none a : (forall c, In c a -> c <> DOT) -> find_dot a = None.
Proof.
  induction a as [|c a IH]; intros H; cbn [find_dot]; [reflexivity|].
  destruct (Ascii.eqb_spec c DOT); [exfalso; apply (H c); [left; reflexivity|assumption]|].
  rewrite IH; [reflexivity|]. intros c' Hc. apply H. right. exact Hc.
Qed.
Lemma from_double_negative x p : p < 0 -> from_double x p = from_double x 6.
Proof. intros H. unfold from_double, stream_precision. destruct (Z.ltb_spec p 0); [reflexivity|lia]. Qed.
Lemma from_double_0 x : finite x -> from_double x 0 = UB.
Proof.
  intros F. unfold from_double. rewrite (proj2 (isFinite_spec x) F). cbn [negb].
  rewrite find_dot_none; [reflexivity|].
  assert (G : forall s n c, 0 <= n -> In c (sign_text s ++ fixed_magnitude n 0) -> c <> DOT).
  { intros s n c Hn Hc ->. apply in_app_or in Hc as [Hc|Hc].
    - destruct s; cbn in Hc; [destruct Hc as [Hc|[]]; discriminate|contradiction].
    - apply fixed_magnitude_0 in Hc; [discriminate|exact Hn]. }
  destruct x as [s|s| |s m e]; cbn [finite] in F; try contradiction; intros c Hc.
  - apply (G s 0); [lia|exact Hc].
  - apply (G s (scaled (Zpos m) e 0)); [apply scaled_nonneg; lia|exact Hc].
Qed.
