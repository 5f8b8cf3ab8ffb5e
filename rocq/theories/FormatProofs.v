(** Lemmas about the text of a double. *)
From Coq Require Import Ascii String QArith Qabs Qpower SpecFloat ZifyBool Lqa.
From Verif Require Import Base IntBasics FracModel FracSpec IOModel IOSpec IOProofs FracProofs FracDouble CommonSpec DoubleModel FormatSpec.
Local Open Scope list_scope.
Local Open Scope Z_scope.

(** *** Powers of ten *)
Lemma ten_pos k : (0 < ten k)%Q.
Proof. apply Qpower_0_lt. reflexivity. Qed.
Lemma ten_add j k : (ten (j + k) == ten j * ten k)%Q.
Proof. apply Qpower_plus. discriminate. Qed.
Lemma ten_nonneg k : 0 <= k -> (ten k == inject_Z (10 ^ k))%Q.
Proof. intros H. unfold ten. symmetry. apply (Zpower_Qpower 10 k H). Qed.
Lemma ten_le j k : j <= k -> (ten j <= ten k)%Q.
Proof. intros H. apply Qpower_le_compat_l; [exact H|discriminate]. Qed.
Lemma ten_lt_inv j k : (ten j < ten k)%Q -> j < k.
Proof. intros H. apply (Qpower_lt_compat_l_inv (10 # 1)); [exact H|reflexivity]. Qed.
Lemma ten_opp k : (ten k * ten (- k) == 1)%Q.
Proof. rewrite <- ten_add, Z.add_opp_diag_r. reflexivity. Qed.
(** the decade of a number is unique *)
Lemma decade_unique q j k : (ten j <= q < ten (j + 1))%Q -> (ten k <= q < ten (k + 1))%Q -> j = k.
Proof.
  intros [A B] [C D]. assert (j < k + 1) by (apply ten_lt_inv; eapply Qle_lt_trans; eauto). assert (k < j + 1) by (apply ten_lt_inv; eapply Qle_lt_trans; eauto). lia.
Qed.
Lemma p10_ten n : (inject_Z (p10 n) == ten (Z.of_nat n))%Q.
Proof. rewrite ten_nonneg by lia. reflexivity. Qed.
(** n of k+1 digits, shifted *)
Lemma scaled_decade n j k : 0 <= j -> 10 ^ j <= n < 10 ^ (j + 1) -> (ten (k + j) <= inject_Z n * ten k < ten (k + j + 1))%Q.
Proof.
  intros Hj [A B]. pose proof (ten_pos k). split.
  - rewrite ten_add, (ten_nonneg j Hj), Qmult_comm. apply Qmult_le_compat_r; [rewrite <- Zle_Qle; exact A|apply Qlt_le_weak; auto].
  - rewrite <- Z.add_assoc, ten_add, (ten_nonneg (j + 1)), (Qmult_comm (ten k)) by lia. apply Qmult_lt_compat_r; [auto|rewrite <- Zlt_Qlt; exact B].
Qed.

(** *** Uniqueness of the notation *)
Lemma last_digit f n : digits f -> nv 0 f = 10 * n -> no_zero_end f -> f = [].
Proof.
  intros D V N. destruct f as [|c f _] using rev_ind; [reflexivity|]. exfalso. unfold no_zero_end in N. rewrite last_last in N. rewrite nv_app0 in V. cbn in V. change (p10 1) with 10 in V.
  unfold digits in D. apply Forall_app in D as [_ D]. inversion D as [|? ? Dc _]; subst. apply N.
  assert (E : digit_val c = 0).
  { unfold isdigit, code in Dc. unfold digit_val, code in *. lia. }
  unfold digit_val, code in E. assert (N_of_ascii c = 48%N) by lia. rewrite <- (ascii_N_embedding c), H. reflexivity.
Qed.
Lemma fraction_unique i j f g a b :
  canonical_text i a -> canonical_text j b -> 0 <= a -> 0 <= b -> digits (i ++ f) -> digits (j ++ g) -> no_zero_end f -> no_zero_end g ->
  nv 0 (i ++ f) * p10 (length g) = nv 0 (j ++ g) * p10 (length f) -> i = j /\ f = g.
Proof.
  assert (L : forall i j f g, digits (i ++ f) -> digits (j ++ g) -> no_zero_end f -> no_zero_end g ->
    nv 0 (i ++ f) * p10 (length g) = nv 0 (j ++ g) * p10 (length f) -> (length f <= length g)%nat -> length f = length g).
  { clear. intros i j f g Df Dg Nf Ng E H. destruct (Nat.eq_dec (length f) (length g)) as [|N]; [auto|]. exfalso.
    assert (P : exists k, length g = (length f + S k)%nat) by (exists (length g - length f - 1)%nat; lia). destruct P as [k P].
    rewrite P, p10_add, p10_S in E. pose proof (p10_pos (length f)). assert (E' : nv 0 (j ++ g) = 10 * (nv 0 (i ++ f) * p10 k)) by nia.
    assert (g <> []) by (intros ->; cbn in P; lia). destruct g as [|c g _] using rev_ind; [auto|].
    rewrite app_assoc in E', Dg. assert (X : no_zero_end ((j ++ g) ++ [c])) by (unfold no_zero_end in *; rewrite last_last in *; exact Ng).
    pose proof (last_digit _ _ Dg E' X) as Y. destruct (j ++ g); discriminate. }
  intros Ci Cj Ha Hb Df Dg Nf Ng E.
  assert (Ln : length f = length g). { destruct (Nat.le_ge_cases (length f) (length g)); [eapply L; eauto|symmetry; eapply L; eauto]. }
  rewrite Ln in E. pose proof (p10_pos (length g)). assert (E' : nv 0 (i ++ f) = nv 0 (j ++ g)) by nia. rewrite !nv_app0, Ln in E'.
  unfold digits in Df, Dg. apply Forall_app in Df as [Di Df]. apply Forall_app in Dg as [Dj Dg]. pose proof (nv_bound _ Df) as Bf. pose proof (nv_bound _ Dg) as Bg. rewrite Ln in Bf.
  assert (Eij : nv 0 i = nv 0 j) by nia.
  assert (V : forall t z, canonical_text t z -> 0 <= z -> digits t -> z = nv 0 t).
  { clear. intros t z H Hz D. destruct H as [|c ds n H _|c ds n H N]; [reflexivity|apply numeral_iff in H; tauto|]. inversion D; discriminate. }
  assert (a = b) by (rewrite (V _ _ Ci Ha Di), (V _ _ Cj Hb Dj); exact Eij). subst b. split; [eapply canonical_text_unique; eauto|].
  apply nv_inj; auto. nia.
Qed.
Lemma inject_eq_scaled n m a b : (inject_Z n * ten (- Z.of_nat a) == inject_Z m * ten (- Z.of_nat b))%Q -> n * p10 b = m * p10 a.
Proof.
  intros E. assert (F : (inject_Z (n * p10 b) == inject_Z (m * p10 a))%Q); [|unfold Qeq in F; cbn in F; lia].
  rewrite !inject_Z_mult, !p10_ten. pose proof (ten_opp (Z.of_nat a)) as A. pose proof (ten_opp (Z.of_nat b)) as B.
  transitivity ((inject_Z n * ten (- Z.of_nat a)) * (ten (Z.of_nat a) * ten (Z.of_nat b)))%Q.
  - transitivity (inject_Z n * ten (Z.of_nat b) * (ten (Z.of_nat a) * ten (- Z.of_nat a)))%Q; [rewrite A; ring|ring].
  - rewrite E. transitivity (inject_Z m * ten (Z.of_nat a) * (ten (Z.of_nat b) * ten (- Z.of_nat b)))%Q; [ring|rewrite B; ring].
Qed.
Lemma fixed_form_unique t u q r : fixed_form t q -> fixed_form u r -> (q == r)%Q -> t = u.
Proof.
  intros [i a f n Ci Ha Hn Nf] [j b g m Cj Hb Hm Ng] E. apply numeral_iff in Hn as (_ & Df & ->). apply numeral_iff in Hm as (_ & Dg & ->).
  apply inject_eq_scaled in E. destruct (fraction_unique i j f g a b) as [-> ->]; auto.
Qed.
Lemma exponent_form_decade t q x : exponent_form t q x -> (ten x <= q < ten (x + 1))%Q.
Proof.
  intros [c f n e y Hn Hc _ _]. apply numeral_iff in Hn as (_ & D & ->). pose proof (nv_lead c f D Hc) as A. pose proof (nv_bound _ D) as [_ B]. cbn [length] in B. unfold p10 in A, B.
  rewrite Nat2Z.inj_succ, <- Z.add_1_r in B. pose proof (scaled_decade (nv 0 (c :: f)) (Z.of_nat (length f)) (y - Z.of_nat (length f)) ltac:(lia) (conj A B)) as H.
  rewrite Z.sub_add in H. exact H.
Qed.
Lemma exponent_digits_unique e e' x : exponent_digits e x -> exponent_digits e' x -> e = e'.
Proof.
  intros [H1 H2] [H3 H4]. apply numeral_iff in H1 as (_ & D1 & V1). apply numeral_iff in H3 as (_ & D2 & V2).
  pose proof (nv_bound _ D1) as B1. pose proof (nv_bound _ D2) as B2.
  destruct H2 as [H2|[H2 H2']], H4 as [H4|[H4 H4']].
  - apply nv_inj; auto; congruence.
  - rewrite H2 in B1. change (p10 2) with 100 in B1. lia.
  - rewrite H4 in B2. change (p10 2) with 100 in B2. lia.
  - eapply canonical_text_unique; eauto.
Qed.
Lemma digit_canonical c : isdigit c = true -> c <> "0"%char -> canonical_text [c] (nv 0 [c]).
Proof. intros H N. apply ct_pos; [|exact N]. apply numeral_iff. splits; [discriminate|constructor; auto|reflexivity]. Qed.
Lemma exponent_form_unique t u q r x y : exponent_form t q x -> exponent_form u r y -> (q == r)%Q -> t = u.
Proof.
  intros H K E. pose proof (exponent_form_decade _ _ _ H) as A. pose proof (exponent_form_decade _ _ _ K) as B. rewrite <- E in B. pose proof (decade_unique _ _ _ A B) as <-. clear A B.
  inversion H as [c f n e z Hn Hc Nf He]; subst. inversion K as [c' f' n' e' z' Hn' Hc' Nf' He']; subst. clear H K.
  rewrite (exponent_digits_unique _ _ _ He He'). apply numeral_iff in Hn as (_ & Df & ->). apply numeral_iff in Hn' as (_ & Dg & ->).
  destruct (fraction_unique [c] [c'] f f' (nv 0 [c]) (nv 0 [c'])) as [[= ->] ->]; auto.
  - inversion Df; apply digit_canonical; auto.
  - inversion Dg; apply digit_canonical; auto.
  - inversion Df; subst. apply (nv_bound [c]). constructor; auto.
  - inversion Dg; subst. apply (nv_bound [c']). constructor; auto.
  - apply inject_eq_scaled. unfold Z.sub in E. rewrite !ten_add in E. apply (Qmult_inj_r _ _ (ten x)); [pose proof (ten_pos x); intros X; rewrite X in *; discriminate|].
    cbn [app]. rewrite <- !Qmult_assoc, !(Qmult_comm _ (ten x)). exact E.
Qed.
Lemma positive_text_unique t u q r : positive_text t q -> positive_text u r -> (q == r)%Q -> t = u.
Proof.
  assert (X : forall t q r x, exponent_form t q x -> x < -4 \/ 6 <= x -> (q == r)%Q -> (ten (-4) <= r < ten 6)%Q -> False).
  { clear. intros t q r x H G E [A B]. apply exponent_form_decade in H as [C D]. rewrite E in C, D.
    assert (-4 < x + 1) by (apply ten_lt_inv; eapply Qle_lt_trans; eauto). assert (x < 6) by (apply ten_lt_inv; eapply Qle_lt_trans; eauto). lia. }
  intros [H1 H2|x H1 H2] [K1 K2|y K1 K2] E; [eapply fixed_form_unique; eauto| | |eapply exponent_form_unique; eauto]; exfalso.
  - eapply X; eauto. symmetry; auto.
  - eapply X; eauto.
Qed.

(** *** The digits *)
Definition up (m e : Z) : Z := m * 2 ^ Z.max 0 e.
Definition down (e : Z) : Z := 2 ^ Z.max 0 (- e).
Lemma down_pos e : 0 < down e.
Proof. apply Z.pow_pos_nonneg; lia. Qed.
Lemma up_pos m e : 0 < m -> 0 < up m e.
Proof. intros H. unfold up. assert (0 < 2 ^ Z.max 0 e) by (apply Z.pow_pos_nonneg; lia). nia. Qed.
Lemma magnitude_ratio m e : (dval (S754_finite false m e) == ratio (up (Zpos m) e) (down e))%Q.
Proof.
  unfold dval, ratio, up, down. rewrite inject_Z_mult. destruct (Z.le_ge_cases 0 e).
  - replace (Z.max 0 e) with e by lia. replace (Z.max 0 (- e)) with 0 by lia. rewrite Qpow2_nonneg by lia. change (inject_Z (2 ^ 0)) with 1%Q. field.
  - replace (Z.max 0 e) with 0 by lia. replace (Z.max 0 (- e)) with (- e) by lia. change (inject_Z (2 ^ 0)) with 1%Q. rewrite <- (Qpow2_nonneg (- e)) by lia. rewrite Qpower_opp. field. apply Qpower_not_0. discriminate.
Qed.
Lemma ratio_ten n d k : 0 < d -> (ratio n d * ten k == ratio (n * 10 ^ Z.max 0 k) (d * 10 ^ Z.max 0 (- k)))%Q.
Proof.
  intros Hd. unfold ratio. rewrite !inject_Z_mult. rewrite <- !ten_nonneg by lia. assert (~ inject_Z d == 0)%Q by (intros X; unfold Qeq in X; cbn in X; lia). destruct (Z.le_ge_cases 0 k).
  - replace (Z.max 0 k) with k by lia. replace (Z.max 0 (- k)) with 0 by lia. change (ten 0) with 1%Q. field. auto.
  - replace (Z.max 0 k) with 0 by lia. replace (Z.max 0 (- k)) with (- k) by lia. change (ten 0) with 1%Q. unfold ten. rewrite Qpower_opp. field. split; auto. apply Qpower_not_0. discriminate.
Qed.
Lemma scaled10_ok m e p : nearest_even (dval (S754_finite false m e) * ten p) (scaled10 (Zpos m) e p).
Proof.
  unfold scaled10. fold (up (Zpos m) e). fold (down e). pose proof (down_pos e). pose proof (up_pos (Zpos m) e ltac:(lia)).
  assert (forall k, 0 < 10 ^ Z.max 0 k) by (intros; apply Z.pow_pos_nonneg; lia). pose proof (H1 p). pose proof (H1 (- p)).
  eapply nearest_even_eq; [|apply round_half_even_ok; nia]. rewrite magnitude_ratio, ratio_ten by auto. reflexivity.
Qed.
Lemma ratio_le a b n d : 0 < d -> 0 < b -> a * d <= n * b -> (ratio a b <= ratio n d)%Q.
Proof.
  intros Hd Hb H. unfold ratio. apply Qle_shift_div_l; [rewrite <- (Zlt_Qlt 0); auto|]. unfold Qdiv. rewrite <- Qmult_assoc, (Qmult_comm (/ _)), Qmult_assoc.
  apply Qle_shift_div_r; [rewrite <- (Zlt_Qlt 0); auto|]. rewrite <- !inject_Z_mult, <- Zle_Qle. exact H.
Qed.
Lemma ratio_lt a b n d : 0 < d -> 0 < b -> a * d < n * b -> (ratio a b < ratio n d)%Q.
Proof.
  intros Hd Hb H. unfold ratio. apply Qlt_shift_div_l; [rewrite <- (Zlt_Qlt 0); auto|]. unfold Qdiv. rewrite <- Qmult_assoc, (Qmult_comm (/ _)), Qmult_assoc.
  apply Qlt_shift_div_r; [rewrite <- (Zlt_Qlt 0); auto|]. rewrite <- !inject_Z_mult, <- Zlt_Qlt. exact H.
Qed.
Lemma dec_nonneg_canonical z : 0 <= z -> canonical_text (dec_nonneg z) z.
Proof.
  intros Hz. unfold dec_nonneg.
  assert (G : forall f z, 0 <= z < p10 (S f) -> canonical_text (dec_Z (S f) z) z).
  { clear. induction f as [|f IH]; intros z Hz; [|remember (S f) as g eqn:Eg]; cbn [dec_Z]; destruct (Z.ltb_spec z 10) as [L|L].
    1, 3: destruct (isdigit_digit_char z) as [D V]; [lia|]; destruct (Z.eq_dec z 0) as [->|N]; [constructor|]; rewrite <- V at 2; change (digit_val (digit_char z)) with (nv 0 [digit_char z]); apply digit_canonical; auto; intros E; rewrite E in V; apply N; rewrite <- V; reflexivity.
    - change (p10 1) with 10 in Hz. lia.
    - rewrite p10_S in Hz. assert (Hd : 1 <= z / 10) by (apply Z.div_le_lower_bound; lia). subst g.
      specialize (IH (z / 10)). assert (X : 0 <= z / 10 < p10 (S f)) by (split; [lia|apply Z.div_lt_upper_bound; lia]). specialize (IH X).
      destruct (isdigit_digit_char (z mod 10)) as [D V]; [pose proof (Z.mod_pos_bound z 10); lia|].
      assert (K : canonical_text (dec_Z (S f) (z / 10) ++ [digit_char (z mod 10)]) (10 * (z / 10) + z mod 10)); [|rewrite <- Z.div_mod in K by lia; exact K].
      revert IH. generalize (dec_Z (S f) (z / 10)) as s. intros s IH. inversion IH as [E0 E1|c ds n H N E0 E1|c ds n H N E0 E1].
      + lia.
      + cbn [app]. apply ct_pos; auto. apply numeral_iff in H as (_ & Dn & Vn). apply numeral_iff. split; [discriminate|]. split; [change (digits ((c :: ds) ++ [digit_char (z mod 10)])); apply Forall_app; split; auto; constructor; auto|].
        change (c :: ds ++ [digit_char (z mod 10)]) with ((c :: ds) ++ [digit_char (z mod 10)]). rewrite nv_app0. change (p10 (length [_])) with 10. rewrite <- Vn. cbn. rewrite V. lia.
      + apply numeral_iff in H as (_ & Dn & Vn). pose proof (nv_bound _ Dn). lia. }
  apply G. split; auto. unfold p10. rewrite Nat2Z.inj_succ, Z2Nat.id by apply Z.log2_nonneg.
  destruct (Z.eq_dec z 0) as [->|E]; [reflexivity|]. apply Z.lt_le_trans with (2 ^ Z.succ (Z.log2 z)); [apply Z.log2_spec; lia|]. apply Z.pow_le_mono_l. lia.
Qed.
Lemma dec_nonneg_length z : 0 < z -> exists c ds, dec_nonneg z = c :: ds /\ c <> "0"%char /\ digits (c :: ds) /\ nv 0 (c :: ds) = z /\ p10 (length ds) <= z < p10 (S (length ds)).
Proof.
  intros Hz. pose proof (dec_nonneg_canonical z ltac:(lia)) as H. inversion H as [E0 E1|c ds n Hn N E0 E1|c ds n Hn N E0 E1]; [lia| |apply numeral_iff in Hn as (_ & Dn & Vn); pose proof (nv_bound _ Dn); lia].
  apply numeral_iff in Hn as (_ & D & V). exists c, ds. pose proof (nv_lead c ds D N). pose proof (nv_bound _ D). cbn [length] in *. splits; auto; lia.
Qed.
Lemma first_place_ok n d : 0 < n -> forall f k, d <= n * p10 f -> exists j, first_place f k n d = k + Z.of_nat j /\ d <= n * p10 j /\ (n < d -> (0 < j)%nat /\ n * p10 (j - 1) < d).
Proof.
  revert n. intros n Hn f. revert n Hn. induction f as [|f IH]; intros n Hn k H; cbn [first_place].
  - exists 0%nat. change (p10 0) with 1 in *. splits; lia.
  - destruct (Z.leb_spec d n) as [L|L]; [exists 0%nat; change (p10 0) with 1; splits; lia|].
    destruct (IH (10 * n) ltac:(lia) (k + 1)) as (j & E & A & B); [rewrite p10_S in H; nia|]. exists (S j). rewrite E, p10_S. splits; try lia.
    intros _. split; [lia|]. replace (S j - 1)%nat with j by lia. destruct j as [|j]; [change (p10 0) with 1; lia|].
    destruct (Z.lt_ge_cases (10 * n) d) as [Q|Q]; [destruct (B Q) as [_ B']; cbn [Nat.sub] in B'; rewrite Nat.sub_0_r in B'; rewrite p10_S; nia|].
    exfalso. clear - E Q. destruct f; cbn [first_place] in E; [lia|]. replace (d <=? 10 * n) with true in E by lia. lia.
Qed.
Lemma decade_ok m e : -1200 <= e -> (ten (decade (Zpos m) e) <= dval (S754_finite false m e) < ten (decade (Zpos m) e + 1))%Q.
Proof.
  intros He. unfold decade. fold (up (Zpos m) e). fold (down e). pose proof (down_pos e) as Hd. pose proof (up_pos (Zpos m) e ltac:(lia)) as Hn.
  assert (G : forall k, (ten k == ratio (10 ^ Z.max 0 k) (10 ^ Z.max 0 (- k)))%Q).
  { intros k. pose proof (ratio_ten 1 1 k ltac:(lia)) as H. rewrite !Z.mul_1_l in H. rewrite <- H. unfold ratio. field. }
  assert (P : forall k, 0 < 10 ^ Z.max 0 k) by (intros; apply Z.pow_pos_nonneg; lia).
  destruct (Z.leb_spec (down e) (up (Zpos m) e)) as [L|L].
  - destruct (dec_nonneg_length (up (Zpos m) e / down e)) as (c & ds & -> & _ & _ & _ & A & B); [apply Z.div_str_pos; lia|].
    cbn [length]. replace (Z.of_nat (S (length ds)) - 1) with (Z.of_nat (length ds)) by lia. rewrite magnitude_ratio, !G. rewrite p10_S in B. unfold p10 in *.
    replace (Z.max 0 (Z.of_nat (length ds))) with (Z.of_nat (length ds)) by lia. replace (Z.max 0 (- Z.of_nat (length ds))) with 0 by lia.
    replace (Z.max 0 (Z.of_nat (length ds) + 1)) with (Z.of_nat (length ds) + 1) by lia. replace (Z.max 0 (- (Z.of_nat (length ds) + 1))) with 0 by lia.
    pose proof (Z.div_mod (up (Zpos m) e) (down e) ltac:(lia)) as DM. pose proof (Z.mod_pos_bound (up (Zpos m) e) (down e) Hd). split.
    + apply ratio_le; [auto|reflexivity|]. change (10 ^ 0) with 1. nia.
    + apply ratio_lt; [reflexivity|auto|]. rewrite Z.pow_add_r by lia. change (10 ^ 0) with 1. change (10 ^ 1) with 10. nia.
  - destruct (first_place_ok (up (Zpos m) e) (down e) Hn 400 0) as (j & -> & A & B).
    { apply Z.le_trans with (1 * p10 400); [|apply Z.mul_le_mono_nonneg_r; [apply Z.lt_le_incl, p10_pos|lia]]. unfold down. apply Z.le_trans with (2 ^ 1200); [apply Z.pow_le_mono_r; lia|]. unfold p10.
      apply Z.leb_le. vm_compute. reflexivity. }
    destruct (B L) as [J B']. rewrite Z.add_0_l, magnitude_ratio, !G. unfold p10 in *. replace (Z.max 0 (- Z.of_nat j)) with 0 by lia. replace (Z.max 0 (- - Z.of_nat j)) with (Z.of_nat j) by lia.
    replace (Z.max 0 (- Z.of_nat j + 1)) with 0 by lia. replace (Z.max 0 (- (- Z.of_nat j + 1))) with (Z.of_nat (j - 1)) by lia. change (10 ^ 0) with 1.
    assert (0 < 10 ^ Z.of_nat j) by (apply Z.pow_pos_nonneg; lia). assert (0 < 10 ^ Z.of_nat (j - 1)) by (apply Z.pow_pos_nonneg; lia). split.
    + apply ratio_le; lia.
    + apply ratio_lt; lia.
Qed.

(** *** The layout *)
Lemma strip_zeros_ok f : exists j, f = strip_zeros f ++ repeat ZERO j /\ no_zero_end (strip_zeros f).
Proof.
  unfold strip_zeros. assert (G : forall r, exists j, r = repeat ZERO j ++ drop_trailing r /\ match drop_trailing r with [] => True | c :: _ => c <> ZERO end).
  { induction r as [|c r (j & E & H)]; [exists 0%nat; split; [reflexivity|exact I]|]. cbn [drop_trailing]. destruct (Ascii.eqb_spec c ZERO) as [->|N].
    - exists (S j). cbn [repeat app]. rewrite E at 1. auto.
    - exists 0%nat. auto. }
  destruct (G (rev f)) as (j & E & H). exists j. split.
  - rewrite <- (rev_involutive f) at 1. rewrite E at 1. rewrite rev_app_distr. f_equal. clear. induction j as [|j IH]; [reflexivity|]. cbn [repeat rev]. rewrite IH. clear. induction j; [reflexivity|]. cbn. f_equal. exact IHj.
  - unfold no_zero_end. destruct (drop_trailing (rev f)) as [|c r]; [cbn; discriminate|]. cbn [rev]. rewrite last_last. exact H.
Qed.
Lemma with_point_ok f : with_point f = fraction (strip_zeros f).
Proof. unfold with_point, fraction. destruct (strip_zeros f); reflexivity. Qed.
(** i.f with the zeros of f dropped *)
Lemma stripped i f n : digits (i ++ f) -> nv 0 (i ++ f) = n -> exists f' n', strip_zeros f = f' /\ no_zero_end f' /\ digits (i ++ f') /\ nv 0 (i ++ f') = n' /\
  forall k, (inject_Z n' * ten (k - Z.of_nat (length f')) == inject_Z n * ten (k - Z.of_nat (length f)))%Q.
Proof.
  intros D V. destruct (strip_zeros_ok f) as (j & E & N). exists (strip_zeros f), (nv 0 (i ++ strip_zeros f)). set (g := strip_zeros f) in *. clearbody g. subst f.
  rewrite app_assoc in D, V. unfold digits in D. apply Forall_app in D as [D _]. rewrite nv_app0, (proj2 (repeat_zero_digits j)), Z.add_0_r, repeat_length in V. splits; auto.
  intros k. rewrite <- V, inject_Z_mult, p10_ten, app_length, repeat_length, Nat2Z.inj_add. replace (k - Z.of_nat (length g)) with (Z.of_nat j + (k - (Z.of_nat (length g) + Z.of_nat j))) by lia.
  rewrite ten_add. ring.
Qed.
Lemma exponent_text_ok x : Z.abs x < 10 ^ 9 -> exists e, exponent_text x = "e"%char :: (if x <? 0 then "-"%char else "+"%char) :: e /\ exponent_digits e (Z.abs x).
Proof.
  intros Hx. eexists. split; [reflexivity|]. destruct (dec_nonneg_ok (Z.abs x) (Z.abs_nonneg x)) as (D & V & N). unfold exponent_digits, pad_zeros.
  set (s := dec_nonneg (Z.abs x)) in *. split.
  - apply numeral_iff. splits; [destruct (2 - length s)%nat; [exact N|discriminate]|apply Forall_app; split; [apply repeat_zero_digits|exact D]|].
    rewrite nv_app0, (proj2 (repeat_zero_digits _)). lia.
  - destruct (Nat.le_gt_cases (length s) 2) as [L|L]; [left; rewrite app_length, repeat_length; lia|right]. replace (2 - length s)%nat with 0%nat by lia. cbn [repeat app].
    assert (X : 0 < Z.abs x). { destruct (Z.eq_dec (Z.abs x) 0) as [Z0|]; [|lia]. unfold s in L. rewrite Z0 in L. cbn in L. lia. }
    split; [|apply dec_nonneg_canonical; lia]. destruct (dec_nonneg_length _ X) as (c & ds & E & _ & _ & _ & A & _). unfold s in L. rewrite E in L. cbn [length] in L.
    apply Z.le_trans with (p10 (length ds)); [|exact A]. change 100 with (10 ^ 2). apply Z.pow_le_mono_r; lia.
Qed.
Lemma numeral_of ds : ds <> [] -> digits ds -> numeral ds (nv 0 ds).
Proof. intros N D. apply numeral_iff. auto. Qed.
Lemma layout n x : 100000 <= n < 1000000 -> Z.abs x < 10 ^ 9 -> let s := dec_nonneg n in
  exists q, (q == inject_Z n * ten (x - 5))%Q /\ positive_text (
  if (x <? -4) || (6 <=? x) then firstn 1 s ++ with_point (skipn 1 s) ++ exponent_text x
  else if 0 <=? x then firstn (Z.to_nat (x + 1)) s ++ with_point (skipn (Z.to_nat (x + 1)) s)
  else ZERO :: with_point (repeat ZERO (Z.to_nat (- x - 1)) ++ s)) q.
Proof.
  intros Hn Hx. cbv zeta. destruct (dec_nonneg_length n ltac:(lia)) as (c & ds & -> & Nc & D & V & A & B).
  assert (L : length ds = 5%nat).
  { assert (Z.of_nat (length ds) < 6) by (apply (Z.pow_lt_mono_r_iff 10); [lia|lia|change (10 ^ 6) with 1000000; unfold p10 in A; lia]).
    assert (5 < Z.of_nat (S (length ds))) by (apply (Z.pow_lt_mono_r_iff 10); [lia|lia|change (10 ^ 5) with 100000; unfold p10 in B; lia]). lia. }
  assert (R : (ten x <= inject_Z n * ten (x - 5) < ten (x + 1))%Q).
  { pose proof (scaled_decade n 5 (x - 5) ltac:(lia) Hn) as H. rewrite Z.sub_add in H. exact H. }
  assert (T : forall q, -4 <= x < 6 -> (q == inject_Z n * ten (x - 5))%Q -> (ten (-4) <= q < ten 6)%Q).
  { intros q Hxx Hq. rewrite Hq. split; [eapply Qle_trans; [apply (ten_le (-4) x); lia|apply R]|eapply Qlt_le_trans; [apply R|apply ten_le; lia]]. }
  destruct (Z.ltb_spec x (-4)) as [X|X]; [|destruct (Z.leb_spec 6 x) as [X'|X']]; cbn [orb].
  1, 2: cbn [firstn skipn]; change (c :: ds) with ([c] ++ ds) in D, V; destruct (stripped [c] ds n D V) as (f & n' & Ef & Nf & Df & Vf & Q); destruct (exponent_text_ok x Hx) as (e & -> & He);
    rewrite with_point_ok, Ef; exists (inject_Z n' * ten (x - Z.of_nat (length f)))%Q; split; [rewrite Q, L; reflexivity|]; apply (pt_exponent _ _ x); [|lia];
    apply exponent_form_; auto; rewrite <- Vf; apply (numeral_of ([c] ++ f)); [discriminate|auto].
  destruct (Z.leb_spec 0 x) as [X0|X0].
  - set (k := Z.to_nat (x + 1)). set (i := firstn k (c :: ds)). set (f0 := skipn k (c :: ds)).
    assert (Eif : c :: ds = i ++ f0) by (symmetry; apply firstn_skipn). rewrite Eif in D, V. destruct (stripped i f0 n D V) as (f & n' & Ef & Nf & Df & Vf & Q).
    assert (Li : exists i', i = c :: i') by (unfold i, k; destruct (Z.to_nat (x + 1)) eqn:K; [lia|eexists; reflexivity]). destruct Li as [i' Ei].
    assert (Lf : Z.of_nat (length f0) = 5 - x). { unfold f0, k. rewrite skipn_length. cbn [length]. lia. }
    rewrite with_point_ok, Ef. exists (inject_Z n' * ten (- Z.of_nat (length f)))%Q.
    assert (Hq : (inject_Z n' * ten (- Z.of_nat (length f)) == inject_Z n * ten (x - 5))%Q) by (pose proof (Q 0) as Q0; rewrite Z.sub_0_l, Lf in Q0; replace (0 - (5 - x)) with (x - 5) in Q0 by lia; exact Q0).
    split; [exact Hq|]. apply pt_fixed; [|apply T; [lia|exact Hq]]. unfold digits in Df. pose proof Df as Df'. apply Forall_app in Df as [Di Dff].
    apply (fixed_form_ i (nv 0 i)); auto.
    + rewrite Ei in Di |- *. apply ct_pos; auto. apply numeral_of; [discriminate|exact Di].
    + apply (nv_bound i Di).
    + rewrite <- Vf. apply numeral_of; [rewrite Ei; discriminate|exact Df'].
  - set (f0 := repeat ZERO (Z.to_nat (- x - 1)) ++ c :: ds).
    assert (D0 : digits ([ZERO] ++ f0)) by (apply Forall_app; split; [constructor; auto|apply Forall_app; split; [apply repeat_zero_digits|exact D]]).
    assert (V0 : nv 0 ([ZERO] ++ f0) = n) by (unfold f0; rewrite !nv_app0, (proj2 (repeat_zero_digits _)), V; change (nv 0 [ZERO]) with 0; lia).
    destruct (stripped [ZERO] f0 n D0 V0) as (f & n' & Ef & Nf & Df & Vf & Q).
    assert (Lf : Z.of_nat (length f0) = 5 - x). { unfold f0. rewrite app_length, repeat_length. cbn [length]. lia. }
    rewrite with_point_ok, Ef. exists (inject_Z n' * ten (- Z.of_nat (length f)))%Q.
    assert (Hq : (inject_Z n' * ten (- Z.of_nat (length f)) == inject_Z n * ten (x - 5))%Q) by (pose proof (Q 0) as Q0; rewrite Z.sub_0_l, Lf in Q0; replace (0 - (5 - x)) with (x - 5) in Q0 by lia; exact Q0).
    split; [exact Hq|]. apply pt_fixed; [|apply T; [lia|exact Hq]]. apply (fixed_form_ [ZERO] 0); auto; [constructor|lia|]. rewrite <- Vf. apply numeral_of; [discriminate|exact Df].
Qed.
(** rounding keeps the decade or moves to the next power of ten *)
Lemma nearest_range q n a b : nearest_even q n -> (inject_Z a <= q)%Q -> (q < inject_Z b)%Q -> a <= n <= b.
Proof.
  intros [H _] A B. apply Qabs_Qle_condition in H as [H1 H2]. split.
  - assert (H : (inject_Z a < inject_Z (n + 1))%Q) by (rewrite inject_Z_plus; change (inject_Z 1) with 1%Q; lra). rewrite <- Zlt_Qlt in H. lia.
  - assert (H : (inject_Z n < inject_Z (b + 1))%Q) by (rewrite inject_Z_plus; change (inject_Z 1) with 1%Q; lra). rewrite <- Zlt_Qlt in H. lia.
Qed.
Lemma scale_decade q k : (ten k <= q < ten (k + 1))%Q -> (inject_Z 100000 <= q * ten (5 - k) < inject_Z 1000000)%Q.
Proof.
  intros [A B]. pose proof (ten_pos (5 - k)) as P. change 100000 with (10 ^ 5). change 1000000 with (10 ^ 6). rewrite <- !ten_nonneg by lia. split.
  - replace 5 with (k + (5 - k)) at 1 by lia. rewrite ten_add. apply Qmult_le_compat_r; [exact A|apply Qlt_le_weak, P].
  - replace 6 with ((k + 1) + (5 - k)) at 1 by lia. rewrite ten_add. apply Qmult_lt_compat_r; auto.
Qed.
Lemma decade_bound m e : -1200 <= e <= 1200 -> Zpos m < 2 ^ 60 -> Z.abs (decade (Zpos m) e) < 10 ^ 8.
Proof.
  intros He Hm. destruct (decade_ok m e ltac:(lia)) as [A B]. set (k := decade (Zpos m) e) in *. clearbody k.
  assert (U : (dval (S754_finite false m e) <= ten 1300)%Q).
  { unfold dval. apply Qle_trans with (inject_Z (2 ^ 60) * (2 # 1) ^ 1200)%Q.
    - apply Qmult_le_compat_nonneg; split; [rewrite <- (Zle_Qle 0); lia|rewrite <- Zle_Qle; lia|apply Qpower_0_le; discriminate|apply Qpower_le_compat_l; [lia|discriminate]].
    - rewrite Qpow2_nonneg by lia. rewrite (ten_nonneg 1300) by lia. rewrite <- inject_Z_mult, <- Zle_Qle. apply Z.leb_le. vm_compute. reflexivity. }
  assert (W : (ten (-1300) <= dval (S754_finite false m e))%Q).
  { unfold dval. apply Qle_trans with (1 * (2 # 1) ^ (-1200))%Q.
    - rewrite Qmult_1_l. unfold ten. rewrite !Qpower_opp with (n := 1300%Z), !Qpower_opp with (n := 1200%Z). apply Qle_shift_inv_l; [apply Qpower_0_lt; reflexivity|].
      rewrite Qmult_comm. apply Qle_shift_div_r; [apply Qpower_0_lt; reflexivity|]. rewrite Qmult_1_l, Qpow2_nonneg by lia. change ((10 # 1) ^ 1300)%Q with (ten 1300). rewrite ten_nonneg by lia. rewrite <- Zle_Qle. apply Z.leb_le. vm_compute. reflexivity.
    - apply Qmult_le_compat_nonneg; split; [discriminate|rewrite <- (Zle_Qle 1); lia|apply Qpower_0_le; discriminate|apply Qpower_le_compat_l; [lia|discriminate]]. }
  assert (k < 1301) by (apply ten_lt_inv; eapply Qle_lt_trans; [exact A|]; eapply Qle_lt_trans; [exact U|]; apply Qpower_lt_compat_l; [lia|reflexivity]).
  assert (-1300 < k + 1) by (apply ten_lt_inv; eapply Qle_lt_trans; eauto). lia.
Qed.
Lemma general_magnitude_ok m e : -1200 <= e <= 1200 -> Zpos m < 2 ^ 60 ->
  exists q p, six_digits (dval (S754_finite false m e)) q /\ (p == q)%Q /\ positive_text (general_magnitude (Zpos m) e) p.
Proof.
  intros He Hm. pose proof (decade_ok m e ltac:(lia)) as K. pose proof (decade_bound m e He Hm) as KB. unfold general_magnitude.
  set (k := decade (Zpos m) e) in *. pose proof (scaled10_ok m e (5 - k)) as N. set (n0 := scaled10 (Zpos m) e (5 - k)) in *.
  pose proof (scale_decade _ _ K) as [S1 S2]. pose proof (nearest_range _ _ _ _ N S1 S2) as R.
  assert (Q : six_digits (dval (S754_finite false m e)) (inject_Z n0 * ten (k - 5))) by (exists k, n0; splits; try apply K; try apply N; reflexivity).
  destruct (Z.eqb_spec n0 1000000) as [E|E].
  - destruct (layout 100000 (k + 1)) as (p & Ep & Hp); [lia|lia|]. cbv zeta in Hp. exists (inject_Z n0 * ten (k - 5))%Q, p. refine (conj Q (conj _ Hp)).
    rewrite Ep, E. change 1000000 with (100000 * 10). replace (k + 1 - 5) with (1 + (k - 5)) by lia. rewrite ten_add, inject_Z_mult. change (ten 1) with (inject_Z 10). ring.
  - destruct (layout n0 k) as (p & Ep & Hp); [lia|lia|]. cbv zeta in Hp. exists (inject_Z n0 * ten (k - 5))%Q, p. exact (conj Q (conj Ep Hp)).
Qed.

(** *** The whole text *)
Lemma six_digits_unique x q r : six_digits x q -> six_digits x r -> (q == r)%Q.
Proof.
  intros (k & n & K & N & ->) (j & m & J & M & ->). pose proof (decade_unique _ _ _ K J) as <-. replace m with n; [reflexivity|].
  destruct N as [N1 N2], M as [M1 M2]. apply Qabs_Qle_condition in N1 as [A B], M1 as [C D].
  set (y := (x * ten (5 - k))%Q) in *. clearbody y.
  assert (X : (inject_Z n <= inject_Z (m + 1))%Q) by (rewrite inject_Z_plus; change (inject_Z 1) with 1%Q; lra). rewrite <- Zle_Qle in X.
  assert (Y : (inject_Z m <= inject_Z (n + 1))%Q) by (rewrite inject_Z_plus; change (inject_Z 1) with 1%Q; lra). rewrite <- Zle_Qle in Y.
  destruct (Z.eq_dec n m) as [|Nm]; [auto|exfalso].
  assert (G : forall a b, b = a + 1 -> (- (1 # 2) <= y - inject_Z a)%Q -> (y - inject_Z a <= 1 # 2)%Q -> (- (1 # 2) <= y - inject_Z b)%Q -> (y - inject_Z b <= 1 # 2)%Q ->
    (Qabs (y - inject_Z a) == 1 # 2)%Q /\ (Qabs (y - inject_Z b) == 1 # 2)%Q).
  { intros a b -> A1 A2 B1 B2. rewrite inject_Z_plus in *. change (inject_Z 1) with 1%Q in *. assert (y - inject_Z a == 1 # 2)%Q as E by lra. assert (y - (inject_Z a + 1) == - (1 # 2))%Q as F by lra.
    rewrite E, F. split; reflexivity. }
  assert (Z : m = n + 1 \/ n = m + 1) by lia. destruct Z as [Z|Z].
  - destruct (G n m Z A B C D) as [G1 G2]. specialize (N2 G1). specialize (M2 G2). rewrite Z, Z.even_add, N2 in M2. discriminate.
  - destruct (G m n Z C D A B) as [G1 G2]. specialize (N2 G2). specialize (M2 G1). rewrite Z, Z.even_add, M2 in N2. discriminate.
Qed.
Lemma double_text_unique d t u : double_text d t -> double_text d u -> t = u.
Proof.
  destruct d as [s|s| |s m e]; cbn [double_text]; try (intros -> ->; reflexivity).
  intros (a & q & -> & Q & p & Ep & P) (b & r & -> & R & o & Eo & O). f_equal. eapply positive_text_unique; eauto. rewrite Ep, Eo. eapply six_digits_unique; eauto.
Qed.
Lemma double_bounds s m e : double (S754_finite s m e) -> -1200 <= e <= 1200 /\ Zpos m < 2 ^ 60.
Proof.
  unfold double, valid_binary, bounded, canonical_mantissa, fexp, SpecFloat.emin. intros H. apply andb_prop in H as [H1 H2]. apply Zeq_bool_eq in H1. apply Zle_bool_imp_le in H2.
  assert (P : forall m, Zpos m < 2 ^ Zpos (digits2_pos m)).
  { clear. induction m as [m IH|m IH|]; cbn [digits2_pos]; try reflexivity; rewrite Pos2Z.inj_succ, Z.pow_succ_r by lia; lia. }
  split; [lia|]. apply (Z.lt_le_trans _ _ _ (P m)). apply Z.pow_le_mono_r; lia.
Qed.
Lemma general_text_ok d : double d -> double_text d (general_text d).
Proof.
  destruct d as [s|s| |s m e]; intros H; cbn [double_text general_text]; try (destruct s; reflexivity); [reflexivity|].
  destruct (double_bounds _ _ _ H) as [He Hm]. destruct (general_magnitude_ok m e He Hm) as (q & p & Q & E & P).
  exists (general_magnitude (Zpos m) e), q. split; [destruct s; reflexivity|]. split; [exact Q|]. exists p. auto.
Qed.

(** *** Integers *)
Lemma int_decade k : 0 < k -> exists j, 0 <= j /\ 10 ^ j <= k < 10 ^ (j + 1).
Proof.
  intros Hk. destruct (dec_nonneg_length k Hk) as (c & ds & _ & _ & _ & _ & A & B). exists (Z.of_nat (length ds)). unfold p10 in *. rewrite Nat2Z.inj_succ, <- Z.add_1_r in B. lia.
Qed.
Lemma six_digits_int x k : (x == inject_Z k)%Q -> 0 < k < 1000000 -> six_digits x x.
Proof.
  intros E Hk. destruct (int_decade k) as (j & Hj & K); [lia|]. assert (j < 6) by (apply (Z.pow_lt_mono_r_iff 10); [lia|lia|change (10 ^ 6) with 1000000; lia]).
  exists j, (k * 10 ^ (5 - j)). split; [|split].
  - pose proof (scaled_decade k j 0 Hj K) as H'. rewrite Z.add_0_l in H'. change (ten 0) with 1%Q in H'. rewrite Qmult_1_r in H'. rewrite E. exact H'.
  - eapply nearest_even_eq; [|apply nearest_even_int]. rewrite inject_Z_mult, <- ten_nonneg, E by lia. reflexivity.
  - rewrite inject_Z_mult, <- ten_nonneg, <- Qmult_assoc, <- ten_add by lia. replace (5 - j + (j - 5)) with 0 by lia. rewrite E. change (ten 0) with 1%Q. ring.
Qed.
Lemma positive_text_int t k : canonical_text t k -> 0 < k < 1000000 -> exists p, (p == inject_Z k)%Q /\ positive_text t p.
Proof.
  intros H Hk. exists (inject_Z k * ten (- Z.of_nat (@length ascii [])))%Q. split; [change (ten _) with 1%Q; ring|]. apply pt_fixed.
  - rewrite <- (app_nil_r t). change (@nil ascii) with (fraction []) at 1. apply (fixed_form_ t k); auto; [lia|rewrite app_nil_r|cbn; discriminate].
    inversion H as [E0 E1|c ds n Hn N E0 E1|c ds n Hn N E0 E1]; [lia|exact Hn|]. apply numeral_iff in Hn as (_ & D & V). pose proof (nv_bound _ D). lia.
  - change (ten (- _)) with 1%Q. rewrite Qmult_1_r. split; [|rewrite (ten_nonneg 6) by lia; rewrite <- Zlt_Qlt; cbn; lia].
    apply Qle_trans with (ten 0); [apply ten_le; lia|]. change (ten 0) with (inject_Z 1). rewrite <- Zle_Qle. lia.
Qed.
Lemma general_text_int d k : double d -> finite d -> (dval d == inject_Z k)%Q -> Z.abs k < 1000000 -> (k = 0 -> d = S754_zero false) -> canonical_text (general_text d) k.
Proof.
  intros Hd Hf E Hk H0. destruct d as [s|s| |s m e]; cbn [finite] in Hf; try contradiction.
  - cbn [dval] in E. assert (k = 0) by (unfold Qeq in E; cbn in E; lia). subst k. rewrite (H0 eq_refl). constructor.
  - set (x := dval (S754_finite false m e)). assert (Px : (0 < x)%Q).
    { unfold x, dval. apply Qmult_lt_0_compat; [rewrite <- (Zlt_Qlt 0); lia|apply Qpower_0_lt; reflexivity]. }
    assert (Ex : (dval (S754_finite s m e) == if s then - x else x)%Q).
    { unfold x, dval. destruct s; [|reflexivity]. change (Zneg m) with (- Zpos m). rewrite inject_Z_opp. ring. }
    set (a := if s then - k else k). assert (Ea : (x == inject_Z a)%Q).
    { unfold a. rewrite Ex in E. destruct s; [rewrite inject_Z_opp, <- E; ring|exact E]. }
    assert (Ha : 0 < a < 1000000). { rewrite Ea in Px. rewrite <- (Zlt_Qlt 0) in Px. unfold a in *. destruct s; lia. }
    pose proof (dec_nonneg_canonical a ltac:(lia)) as C. destruct (positive_text_int _ _ C Ha) as (p & Ep & P).
    pose proof (general_text_ok _ Hd) as G. assert (T : general_text (S754_finite s m e) = minus_if s ++ dec_nonneg a).
    { apply (double_text_unique _ _ _ G). cbn [double_text]. exists (dec_nonneg a), x. split; [reflexivity|]. split; [apply (six_digits_int _ a); auto|]. exists p. split; [rewrite Ep, Ea; reflexivity|exact P]. }
    rewrite T. clear T G. unfold a in *. destruct s; cbn [minus_if app]; [|exact C]. inversion C as [E0 E1|c ds n Hn N E0 E1|c ds n Hn N E0 E1]; [lia| |].
    + replace k with (- (- k)) by lia. apply ct_neg; auto.
    + apply numeral_iff in Hn as (_ & D & V). pose proof (nv_bound _ D). lia.
Qed.
(** *** Order *)
Lemma six_digits_decade x q k : (ten k <= x < ten (k + 1))%Q -> six_digits x q -> (ten k <= q <= ten (k + 1))%Q.
Proof.
  intros K (j & n & J & N & ->). pose proof (decade_unique _ _ _ K J) as <-. pose proof (scale_decade _ _ K) as [S1 S2]. pose proof (nearest_range _ _ _ _ N S1 S2) as [R1 R2].
  pose proof (ten_pos (k - 5)) as P. split.
  - replace k with (5 + (k - 5)) at 1 by lia. rewrite ten_add. apply Qmult_le_compat_r; [|apply Qlt_le_weak, P]. rewrite ten_nonneg by lia. rewrite <- Zle_Qle. exact R1.
  - replace (k + 1) with (6 + (k - 5)) by lia. rewrite ten_add. apply Qmult_le_compat_r; [|apply Qlt_le_weak, P]. rewrite ten_nonneg by lia. rewrite <- Zle_Qle. exact R2.
Qed.
Lemma nearest_even_mono x y n m : nearest_even x n -> nearest_even y m -> (x <= y)%Q -> n <= m.
Proof.
  intros N M H. destruct (Z.le_gt_cases n m) as [|L]; [auto|exfalso]. pose proof N as [N1 N2]. pose proof M as [M1 M2].
  apply Qabs_Qle_condition in N1 as [A B], M1 as [C D].
  assert (X : (inject_Z n <= inject_Z (m + 1))%Q) by (rewrite inject_Z_plus; change (inject_Z 1) with 1%Q; lra). rewrite <- Zle_Qle in X. assert (n = m + 1) by lia. subst n.
  rewrite inject_Z_plus in *. change (inject_Z 1) with 1%Q in *.
  assert (E1 : (y - inject_Z m == 1 # 2)%Q) by lra. assert (E2 : (x - (inject_Z m + 1) == - (1 # 2))%Q) by lra. rewrite E1 in M2. rewrite E2 in N2.
  specialize (M2 (Qeq_refl _)). specialize (N2 (Qeq_refl _)). rewrite Z.even_add, M2 in N2. discriminate.
Qed.
Lemma six_digits_mono x y q r : six_digits x q -> six_digits y r -> (x <= y)%Q -> (q <= r)%Q.
Proof.
  intros Q R H. pose proof Q as (k & n & K & N & Eq). pose proof R as (j & m & J & M & Er). destruct (Z.lt_trichotomy k j) as [L|[L|L]].
  - apply Qle_trans with (ten (k + 1)); [apply (six_digits_decade x q k); auto|]. apply Qle_trans with (ten j); [apply ten_le; lia|]. apply (six_digits_decade y r j); auto.
  - subst j. rewrite Eq, Er. pose proof (ten_pos (k - 5)) as P. apply Qmult_le_compat_r; [|apply Qlt_le_weak, P]. rewrite <- Zle_Qle. apply (nearest_even_mono _ _ _ _ N M).
    apply Qmult_le_compat_r; [exact H|apply Qlt_le_weak, ten_pos].
  - exfalso. assert (k < j + 1); [|lia]. apply ten_lt_inv. apply Qle_lt_trans with x; [apply K|]. apply Qle_lt_trans with y; [exact H|apply J].
Qed.
Lemma magnitude_pos m e : (0 < dval (S754_finite false m e))%Q.
Proof. unfold dval. apply Qmult_lt_0_compat; [rewrite <- (Zlt_Qlt 0); lia|apply Qpower_0_lt; reflexivity]. Qed.
Lemma six_digits_pos x q : (0 < x)%Q -> six_digits x q -> (0 < q)%Q.
Proof. intros _ Q. pose proof Q as (k & n & K & _). apply Qlt_le_trans with (ten k); [apply ten_pos|]. apply (six_digits_decade x q k); auto. Qed.
(** the number a text shows, as the rounded value *)
Lemma shown_value d : double d -> finite d -> exists q, shows (general_text d) q /\
  match d with S754_finite s m e => exists r, six_digits (dval (S754_finite false m e)) r /\ (q == if s then - r else r)%Q | _ => q = 0%Q end.
Proof.
  intros Hd Hf. pose proof (general_text_ok d Hd) as G. destruct d as [s|s| |s m e]; cbn [finite] in Hf; try contradiction; cbn [double_text] in G.
  - exists 0%Q. rewrite G. split; [apply shows_zero|reflexivity].
  - destruct G as (u & r & -> & R & p & Ep & P). exists (if s then - p else p)%Q. split; [apply shows_number; exact P|]. exists r. split; [exact R|]. destruct s; rewrite Ep; reflexivity.
Qed.
Lemma shown_order x y : double x -> double y -> finite x -> finite y -> (dval x <= dval y)%Q ->
  exists p q, shows (general_text x) p /\ shows (general_text y) q /\ (p <= q)%Q.
Proof.
  intros Dx Dy Fx Fy H. destruct (shown_value x Dx Fx) as (p & P & Ep). destruct (shown_value y Dy Fy) as (q & Q & Eq). exists p, q. refine (conj P (conj Q _)). clear P Q.
  assert (V : forall s m e, (dval (S754_finite s m e) == if s then - dval (S754_finite false m e) else dval (S754_finite false m e))%Q).
  { intros s m e. unfold dval. destruct s; [|reflexivity]. change (Zneg m) with (- Zpos m). rewrite inject_Z_opp. ring. }
  destruct x as [s|s| |s m e]; cbn [finite] in Fx; try contradiction; destruct y as [s'|s'| |s' m' e']; cbn [finite] in Fy; try contradiction; try rewrite Ep; try rewrite Eq; try rewrite (V s m e) in H; try rewrite (V s' m' e') in H.
  - apply Qle_refl.
  - destruct Eq as (r & R & ->). pose proof (six_digits_pos _ _ (magnitude_pos m' e') R). pose proof (magnitude_pos m' e'). change (dval (S754_zero s)) with 0%Q in H. destruct s'; lra.
  - destruct Ep as (r & R & ->). pose proof (six_digits_pos _ _ (magnitude_pos m e) R). pose proof (magnitude_pos m e). change (dval (S754_zero s')) with 0%Q in H. destruct s; lra.
  - destruct Ep as (r & R & ->), Eq as (t & T & ->). pose proof (six_digits_pos _ _ (magnitude_pos m e) R). pose proof (six_digits_pos _ _ (magnitude_pos m' e') T).
    pose proof (magnitude_pos m e). pose proof (magnitude_pos m' e'). destruct s, s'; try lra.
    + pose proof (six_digits_mono _ _ _ _ T R). lra.
    + apply (six_digits_mono _ _ _ _ R T H).
Qed.
