(** What exponentiation does for every exponent. *)
From Coq Require Import ZifyBool.
From Verif Require Import Base IntModel IntSpec IntBasics IntAddSub IntMul IntDiv IntMod.

(** The exponent during the recursion is a value v in s bins, with redundant zero bins
    after halvings. *)
Definition recognised (v s j k : Z) : Prop :=
  (v mod 2 ^ j = 0 /\ s = k + 1) \/ (j <= 29 /\ v mod 2 ^ j <> 0) \/ (29 < j /\ (v / 2 ^ (j - 29)) mod 2 ^ 29 <> 0).
Definition hit (v s j k : Z) : Prop :=
  0 <= j /\ 1 <= k /\ (v / 2 ^ j = B ^ k + 1 \/ v / 2 ^ j = B ^ k /\ recognised v s j k).

Lemma half_mod v j : 0 <= j -> Z.odd v = false -> v mod 2 ^ (j + 1) = 2 * ((v / 2) mod 2 ^ j).
Proof.
  intros Hj Ho. assert (E : v = 2 * (v / 2)) by (rewrite (Z.div_mod v 2) at 1 by lia; rewrite Zmod_odd, Ho; lia).
  rewrite E at 1. rewrite Z.add_1_r, Z.pow_succ_r by lia. rewrite Z.mul_mod_distr_l by (try lia; apply Z.pow_nonzero; lia). reflexivity.
Qed.
Lemma recognised_half v s j k : 0 <= j -> Z.odd v = false -> (recognised v s (j + 1) k <-> recognised (v / 2) s j k).
Proof.
  intros Hj Ho. unfold recognised. rewrite half_mod by auto.
  assert (D : 29 < j -> v / 2 ^ (j + 1 - 29) = v / 2 / 2 ^ (j - 29)) by (intros; rewrite half_pow by lia; f_equal; f_equal; lia).
  destruct (Z.lt_trichotomy j 29) as [L|[->|L]].
  - split; intros [A|[A|A]]; [left; lia|right; left; lia|lia|left; lia|right; left; lia|lia].
  - change (29 + 1 - 29) with 1. rewrite Z.pow_1_r. split; intros [A|[A|A]]; [left; lia|lia|right; left; lia|left; lia| |lia].
    right; right; lia.
  - rewrite D by auto. split; intros [A|[A|A]]; [left; lia|lia|right; right; split; [lia|apply A]|left; lia|lia|right; right; split; [lia|apply A]].
Qed.
Lemma hit_half v s j k : 0 <= j -> Z.odd v = false -> (hit v s (j + 1) k <-> hit (v / 2) s j k).
Proof.
  intros Hj Ho. unfold hit. rewrite half_pow, (recognised_half v s j k) by auto.
  split; intros (_ & H1 & H2); repeat split; auto; lia.
Qed.
Lemma pow2_29 : 2 ^ 29 = 536870912. Proof. reflexivity. Qed.
Lemma trimmed_bins s k j : 0 <= k -> 0 <= j -> 1 <= s -> B ^ (s - 1) <= B ^ k * 2 ^ j < B ^ s -> (s = k + 1 <-> j <= 29).
Proof.
  intros Hk Hj Hs [L U]. pose proof (Z.pow_pos_nonneg B k ltac:(lia) Hk) as P.
  assert (E : B ^ (k + 1) = B * B ^ k) by (rewrite Z.add_1_r, Z.pow_succ_r by lia; reflexivity). split; intros H.
  - subst s. rewrite E in U. destruct (Z_lt_le_dec 29 j); [|lia].
    pose proof (Z.pow_le_mono_r 2 30 j ltac:(lia) ltac:(lia)). change (2 ^ 30) with 1073741824 in *. nia.
  - pose proof (Z.pow_le_mono_r 2 j 29 ltac:(lia) ltac:(lia)) as M. rewrite pow2_29 in M.
    pose proof (Z.pow_pos_nonneg 2 j ltac:(lia) Hj).
    assert (s - 1 < k + 1). { apply (Z.pow_lt_mono_r_iff B); [lia|lia|]. rewrite E. nia. }
    assert (k < s). { apply (Z.pow_lt_mono_r_iff B); [lia|lia|]. nia. }
    lia.
Qed.
Lemma odd_mod v j : 1 <= j -> Z.odd v = true -> v mod 2 ^ j <> 0.
Proof.
  intros Hj Ho E. apply Z.mod_divide in E; [|apply Z.pow_nonzero; lia]. destruct E as [q E].
  replace j with (Z.succ (j - 1)) in E by lia. rewrite Z.pow_succ_r in E by lia.
  rewrite E, !Z.odd_mul in Ho. change (Z.odd 2) with false in Ho. rewrite !andb_false_l, !andb_false_r in Ho. discriminate.
Qed.
Lemma hit_dec v s s' j k : 0 <= j -> 1 < v -> Z.odd v = true -> 1 <= s' -> B ^ (s' - 1) <= v - 1 < B ^ s' ->
  (hit (v - 1) s' j k <-> hit v s j k).
Proof.
  intros Hj Hv Ho Hs' T. unfold hit. destruct (Z.eq_dec j 0) as [->|Nj].
  - rewrite Z.pow_0_r, !Z.div_1_r. split; intros (_ & Hk & H); splits; auto; try lia.
    + destruct H as [H|[H _]].
      * exfalso. assert (O : Z.odd (v - 1) = Z.odd (B ^ k + 1)) by congruence.
        rewrite Z.odd_sub, Ho, Z.odd_add, radix_even in O by lia. discriminate.
      * left. lia.
    + destruct H as [H|[H _]].
      * right. split; [lia|]. left. rewrite Z.mod_1_r. split; auto. apply (trimmed_bins s' k 0); try lia.
      * exfalso. rewrite H, radix_even in Ho by lia. discriminate.
  - rewrite dec_pow by (auto; lia).
    assert (R : 1 <= k -> v / 2 ^ j = B ^ k -> (recognised (v - 1) s' j k <-> recognised v s j k)).
    { intros Hk E. unfold recognised. pose proof (odd_mod v j ltac:(lia) Ho) as M.
      assert (D : 29 < j -> (v - 1) / 2 ^ (j - 29) = v / 2 ^ (j - 29)) by (intros; apply dec_pow; auto; lia).
      assert (Q : (v - 1) mod 2 ^ j = 0 -> v - 1 = B ^ k * 2 ^ j).
      { intros Z0. rewrite <- E, <- (dec_pow j v) by (auto; lia). rewrite (Z.div_mod (v - 1) (2 ^ j)) at 1 by (apply Z.pow_nonzero; lia). lia. }
      destruct (Z_le_gt_dec j 29) as [L|L].
      - split; intros _; [right; left; auto|].
        destruct (Z.eq_dec ((v - 1) mod 2 ^ j) 0) as [Z0|Z0]; [left|right; left; auto]. split; auto.
        apply (trimmed_bins s' k j); try lia.
      - rewrite D by lia. split; intros [A|[A|A]]; try lia; try (right; right; split; [lia|apply A]).
        destruct A as [Z0 Es]. exfalso. apply (trimmed_bins s' k j) in Es; try lia. }
    split; intros (_ & Hk & [H|[H H']]); splits; auto; right; split; auto; apply R; auto.
Qed.
Lemma small_no_hit v s j k : 0 <= v < B -> ~ hit v s j k.
Proof.
  intros Hv (Hj & Hk & H). pose proof (small_no_radix v Hv j k Hj Hk) as [H1 H2]. destruct H as [H|[H _]]; contradiction.
Qed.

(** The exponents that run into the failing subtraction. *)
Definition bad (y : Int) : Prop := leads_to_2_29 (aval y) \/ (trimmedb (bins y) = false /\ is_pow2 (aval y)).
Lemma leads_big v : 0 <= v -> leads_to_2_29 v -> 2 ^ 30 <= v.
Proof.
  intros Hv [t [T1 T2]]. pose proof (Z.pow_le_mono_r 2 1 t ltac:(lia) ltac:(lia)).
  pose proof (Z.mul_div_le v (2 ^ t) ltac:(lia)). rewrite T2 in H0. change (2 ^ 30) with (2 * 2 ^ 29). nia.
Qed.
Lemma bad_half y h : wf y -> wf h -> size h = size y -> aval h = aval y / 2 -> Z.odd (aval y) = false -> 0 < aval y -> (bad h <-> bad y).
Proof.
  intros Hy Wh Sh Vh Eo Pos. unfold bad. pose proof (aval_nonneg y Hy) as Py.
  assert (Ev : aval y = 2 * (aval y / 2)) by (rewrite (Z.div_mod (aval y) 2) at 1 by lia; rewrite Zmod_odd, Eo; lia).
  split.
  - intros [L|[T [i [Hi Hp]]]]; rewrite Vh in *; [left; apply leads_half, L|].
    assert (P2 : is_pow2 (aval y)) by (exists (i + 1); split; [lia|]; rewrite Z.pow_add_r by lia; lia).
    destruct (trimmedb (bins y)) eqn:Ty; [|right; auto]. left.
    apply (pow2_leads _ P2).
    apply trimmedb_spec in Ty; [|apply Hy].
    destruct (untrimmed_size h Wh T) as [U1 _]; rewrite Sh in U1.
    pose proof (trimmed_lower _ (proj2 Hy) Ty ltac:(unfold size in *; lia)) as TL.
    pose proof (pw_le 1 (length (bins y) - 1) ltac:(unfold size in *; lia)) as PL.
    change (pw 1) with B in PL. unfold aval; lia.
  - rewrite Vh. intros [L|[T [i [Hi Hp]]]].
    + destruct (L) as [t [T1 T2]]. destruct (Z.eq_dec t 1) as [->|].
      * right. pose proof (leads_big _ Py L) as Big. change (2 ^ 30) with 1073741824 in Big. rewrite Z.pow_1_r in T2. split.
        -- apply size_untrimmed; auto; rewrite Sh.
           ++ pose proof (size_ge_of_aval y 1 Hy). change (pw 1) with B in H. lia.
           ++ rewrite Vh, T2. pose proof (size_ge_of_aval y 1 Hy). change (pw 1) with B in H.
              specialize (H ltac:(lia)). pose proof (pw_le 1 (size y - 1) ltac:(lia)).
              change (pw 1) with B in H0. rewrite pow2_29. lia.
        -- exists 29. split; [lia|]. exact T2.
      * left. exists (t - 1). split; [lia|]. rewrite half_pow by lia. rewrite <- T2. f_equal. f_equal. lia.
    + right. split.
      * destruct (untrimmed_size y Hy T) as [U1 U2].
        apply size_untrimmed; auto; rewrite Sh; [assumption|]. rewrite Vh. pose proof (div_le_self (aval y)). lia.
      * destruct (Z.eq_dec i 0) as [->|].
        -- rewrite Z.pow_0_r in Hp. rewrite Hp in Eo. discriminate.
        -- exists (i - 1). split; [lia|]. replace i with (Z.succ (i - 1)) in Hp by lia.
           rewrite Z.pow_succ_r in Hp by lia. lia.
Qed.
Lemma bad_dec y ym : canonical ym -> aval ym = aval y - 1 -> Z.odd (aval y) = true -> 1 < aval y -> (bad ym <-> bad y).
Proof.
  intros C V Eo Pos. unfold bad. rewrite V. rewrite leads_dec by auto.
  assert (T : trimmedb (bins ym) = true) by (apply trimmedb_spec; [apply C|auto]).
  split; intros [L|[L [i [Hi P]]]]; auto; [congruence|].
  exfalso. destruct (Z.eq_dec i 0) as [->|]; [rewrite Z.pow_0_r in P; lia|]. rewrite P, Z.odd_pow in Eo by lia. discriminate.
Qed.

Definition first_hit (v s j k : Z) : Prop := hit v s j k /\ forall j' k', hit v s j' k' -> j <= j'.
Definition taken (v s e : Z) : Prop :=
  (exists j k, first_hit v s j k /\ e = v - 2 ^ j * (B ^ k - 1)) \/ ((forall j k, ~ hit v s j k) /\ e = v).
Lemma taken_nonneg v s e : 0 <= v -> taken v s e -> 0 <= e.
Proof.
  intros Hv [(j & k & [(Hj & Hk & H) _] & ->)|[_ ->]]; auto.
  pose proof (Z.mul_div_le v (2 ^ j) ltac:(apply Z.pow_pos_nonneg; lia)). pose proof (Z.pow_pos_nonneg 2 j ltac:(lia) Hj).
  assert (B ^ k <= v / 2 ^ j) by (destruct H as [H|[H _]]; lia). nia.
Qed.
Lemma taken_half v s e : Z.odd v = false -> (forall k, ~ hit v s 0 k) -> taken (v / 2) s e -> taken v s (2 * e).
Proof.
  intros Ho N. assert (Ev : v = 2 * (v / 2)) by (rewrite (Z.div_mod v 2) at 1 by lia; rewrite Zmod_odd, Ho; lia).
  intros [(j & k & [H M] & ->)|[H ->]].
  - left. assert (Hj : 0 <= j) by apply H. exists (j + 1), k. split; [split|].
    + apply hit_half; auto.
    + intros j' k' H'. assert (0 <= j') by apply H'. destruct (Z.eq_dec j' 0) as [->|]; [exfalso; eapply N; eauto|].
      replace j' with (j' - 1 + 1) in H' by lia. apply hit_half in H'; [|lia|auto]. apply M in H'. lia.
    + rewrite Z.add_1_r, Z.pow_succ_r by lia. rewrite Z.mul_sub_distr_l, <- Ev. ring.
  - right. split; [|lia]. intros j' k' H'. assert (0 <= j') by apply H'. destruct (Z.eq_dec j' 0) as [->|]; [eapply N; eauto|].
    replace j' with (j' - 1 + 1) in H' by lia. apply hit_half in H'; [|lia|auto]. eapply H; eauto.
Qed.
Lemma taken_dec v s s' e : 1 < v -> Z.odd v = true -> 1 <= s' -> B ^ (s' - 1) <= v - 1 < B ^ s' -> taken (v - 1) s' e -> taken v s (e + 1).
Proof.
  intros Hv Ho Hs T [(j & k & [H M] & ->)|[H ->]].
  - left. assert (Hj : 0 <= j) by apply H. exists j, k. split; [split|].
    + eapply hit_dec; eauto.
    + intros j' k' H'. apply (M j' k'). eapply hit_dec; eauto. apply H'.
    + lia.
  - right. split; [|lia]. intros j' k' H'. apply (H j' k'). eapply hit_dec; eauto. apply H'.
Qed.

Lemma exp_exact x : wf x -> trimmed (bins x) -> (val x = 0 -> negative x = false) ->
  forall fuel y, wf y -> nonneg y ->
  2 * Z.log2 (aval y) + (if Z.odd (aval y) then 1 else 0) + 1 <= Z.of_nat fuel ->
  (exists e r, taken (aval y) (Z.of_nat (size y)) e /\ ((forall j k, ~ hit (aval y) (Z.of_nat (size y)) j k) -> ~ bad y) /\
     exponentiate fuel x y = Ok r /\ canonical r /\ val r = val x ^ e) \/
  ((forall j k, ~ hit (aval y) (Z.of_nat (size y)) j k) /\ bad y /\ exponentiate fuel x y = Abort).
Proof.
  intros Hx Tx Sx. induction fuel as [|f IH]; intros y Hy Ny Hf.
  { pose proof (Z.log2_nonneg (aval y)). destruct (Z.odd (aval y)); lia. }
  cbn [exponentiate]. rewrite equals_int32_0 by assumption. cbn [bind].
  pose proof (aval_nonneg y Hy) as Py. pose proof (size_pos y Hy) as Sy.
  destruct (Z.eqb_spec (aval y) 0) as [E0|E0].
  { left. exists 0, (mkInt [1] false). rewrite E0. splits; auto using one_canonical.
    - right. split; auto. intros j k. apply small_no_hit. lia.
    - intros _ [L|[_ [i [Hi P]]]]; [rewrite E0 in L; apply leads_big in L; lia|]. rewrite E0 in P. pose proof (Z.pow_pos_nonneg 2 i). lia. }
  rewrite equals_int32_gen by (auto; unfold INT32_MIN, INT32_MAX; lia). rewrite Ny.
  change (Bool.eqb false (1 <? 0) || (1 =? 0)) with true. change (Z.abs 1 <? B) with true. change (Z.abs 1) with 1.
  rewrite !andb_true_r, Z.mul_1_l. cbn [bind].
  destruct (Z.eqb_spec (aval y) (pw (size y - 1))) as [E1|E1].
  { left. exists 1, x.
    assert (Cx : canonical x). { split; auto. split; auto. intros N V. specialize (Sx V). congruence. }
    destruct (Nat.eq_dec (size y) 1) as [S1|S1].
    - rewrite S1 in E1. change (pw (1 - 1)) with 1 in E1. rewrite E1. splits; auto; [| |lia].
      + right. split; auto. intros j k. apply small_no_hit. lia.
      + intros _ [L|[T _]]; [rewrite E1 in L; apply leads_big in L; lia|]. apply untrimmed_size in T; auto. lia.
    - assert (H : hit (aval y) (Z.of_nat (size y)) 0 (Z.of_nat (size y - 1))).
      { unfold hit. rewrite Z.pow_0_r, Z.div_1_r. splits; [lia|lia|]. right. split; [exact E1|]. left. rewrite Z.mod_1_r. lia. }
      splits; auto; [| |lia].
      + left. exists 0, (Z.of_nat (size y - 1)). split; [split; [exact H|intros j' k' H'; apply H']|]. unfold pw in E1. lia.
      + intros N. exfalso. eapply N; eauto. }
  assert (NH : Z.odd (aval y) = false -> forall k, ~ hit (aval y) (Z.of_nat (size y)) 0 k).
  { intros Eo k (_ & Hk & H). rewrite Z.pow_0_r, Z.div_1_r in H. destruct H as [H|[H R]].
    - rewrite H, Z.odd_add, radix_even in Eo by lia. discriminate.
    - destruct R as [[_ R]|[[_ R]|[R _]]]; [|rewrite Z.mod_1_r in R; lia|lia].
      apply E1. unfold pw. rewrite H. f_equal. lia. }
  rewrite is_odd_spec, (val_nonneg_aval y Ny) by assumption. cbn [bind].
  destruct (Z.odd (aval y)) eqn:Eo.
  - destruct (Int_of_int64_ok 1 0) as [one [Eone [Vone [Cone _]]]]; [unfold INT64_MIN, INT64_MAX; lia|].
    rewrite Eone. cbn [bind]. rewrite pw_0 in Vone. replace (1 * 1) with 1 in Vone by lia.
    pose proof (op_sub_gen y one Hy ltac:(auto)) as G.
    assert (Aone : aval one = 1) by (rewrite <- abs_val, Vone by auto; reflexivity).
    assert (None1 : negative one = false) by (rewrite (canonical_neg_eq one Cone); lia).
    destruct (Z.eq_dec (aval y) 1) as [V1|V1].
    + right. rewrite V1, Aone in G. change (1 >? 1) with false in G. rewrite Ny, None1 in G. cbn [Bool.eqb andb] in G.
      assert (T : trimmedb (bins y) = false).
      { assert (size y <> 1%nat) by (intros S1; apply E1; rewrite V1, S1; reflexivity).
        apply size_untrimmed; auto; [lia|]. replace (size y - 1)%nat with (S (size y - 2)) by lia. pose proof (pw_ge_S (size y - 2)). lia. }
      splits.
      * intros j k. rewrite V1. apply small_no_hit. lia.
      * right. split; auto. exists 0. split; [lia|]. rewrite V1. reflexivity.
      * rewrite T in G. cbn [negb] in G. rewrite G. reflexivity.
    + replace (aval y >? aval one) with true in G by lia.
      rewrite (proj2 (trimmedb_spec (bins one) (proj1 (canonical_wf _ Cone))) ltac:(auto)), andb_false_r in G.
      destruct G as [ym [Em [Wm [Vm [Zm [_ Cm]]]]]].
      assert (C : canonical ym) by (apply Cm; rewrite Ny; congruence).
      rewrite Em. cbn [bind].
      rewrite (val_nonneg_aval y Ny), Vone in Vm.
      assert (Nm : nonneg ym) by (unfold nonneg; rewrite (canonical_neg_eq ym C); lia).
      rewrite (val_nonneg_aval ym Nm) in Vm.
      destruct (exp_measure_odd (aval y) ltac:(lia) Eo) as [M1 M2].
      pose proof (size_pos ym Wm) as Sm.
      assert (TR : B ^ (Z.of_nat (size ym) - 1) <= aval y - 1 < B ^ Z.of_nat (size ym)).
      { rewrite <- Vm. split; [|apply aval_lt_pw; auto].
        destruct (Nat.eq_dec (size ym) 1) as [S1|S1]; [rewrite S1; change (B ^ (Z.of_nat 1 - 1)) with 1; lia|].
        pose proof (trimmed_lower (bins ym) (proj2 Wm) ltac:(auto) ltac:(unfold size in *; lia)) as TL.
        unfold pw in TL. unfold aval, size in *. replace (Z.of_nat (length (bins ym)) - 1) with (Z.of_nat (length (bins ym) - 1)) by lia. lia. }
      assert (HD : forall j k, hit (aval ym) (Z.of_nat (size ym)) j k <-> hit (aval y) (Z.of_nat (size y)) j k).
      { intros j k. rewrite Vm. split; intros H; (assert (0 <= j) by apply H); eapply hit_dec; eauto; lia. }
      assert (BD : bad ym <-> bad y) by (apply bad_dec; auto; lia).
      destruct (IH ym Wm Nm) as [(e & r & Te & Nb & Er & Cr & Vr)|(Nh & Bd & Er)]; [rewrite Vm, M2; lia| |].
      * left. rewrite Er. cbn [bind]. destruct (op_mul_ok x r Hx ltac:(auto) Tx ltac:(auto)) as [p [Ep [Cp Vp]]].
        assert (0 <= e) by (eapply taken_nonneg; [|exact Te]; lia).
        exists (e + 1), p. splits; auto.
        -- rewrite Vm in Te. eapply taken_dec; eauto; lia.
        -- intros N. rewrite <- BD. apply Nb. intros j k. rewrite HD. apply N.
        -- rewrite Vp, Vr, Z.add_1_r, Z.pow_succ_r by lia. reflexivity.
      * right. splits; [intros j k; rewrite <- HD; apply Nh|apply BD, Bd|]. rewrite Er. reflexivity.
  - destruct (divide_by_int_ok y 2 false Hy ltac:(unfold INT32_MAX; lia)) as [h [Eh [Wh [Nh [Sh Vh]]]]].
    rewrite Eh. cbn [bind]. specialize (NH eq_refl).
    assert (BD : bad h <-> bad y) by (apply bad_half; auto; lia).
    assert (HD : (forall j k, ~ hit (aval h) (Z.of_nat (size h)) j k) <-> (forall j k, ~ hit (aval y) (Z.of_nat (size y)) j k)).
    { rewrite Vh, Sh. split; intros H j k K.
      - assert (0 <= j) by apply K. destruct (Z.eq_dec j 0) as [->|]; [eapply NH; eauto|].
        replace j with (j - 1 + 1) in K by lia. apply hit_half in K; [|lia|auto]. eapply H; eauto.
      - apply hit_half in K; [|apply K|auto]. eapply H; eauto. }
    destruct (IH h Wh Nh) as [(e & r & Te & Nb & Er & Cr & Vr)|(Nh' & Bd & Er)].
    { rewrite Vh. pose proof (exp_measure_even (aval y) ltac:(lia) Eo). lia. }
    + left. rewrite Er. cbn [bind]. destruct (op_mul_ok r r ltac:(auto) ltac:(auto) ltac:(auto) ltac:(auto)) as [p [Ep [Cp Vp]]].
      assert (0 <= e) by (eapply taken_nonneg; [|exact Te]; apply aval_nonneg; auto).
      exists (2 * e), p. splits; auto.
      * rewrite Vh, Sh in Te. apply taken_half; auto.
      * intros N. rewrite <- BD. apply Nb, HD, N.
      * rewrite Vp, Vr, pow_double by lia. reflexivity.
    + right. splits; [apply HD, Nh'|apply BD, Bd|]. rewrite Er. reflexivity.
Qed.

(** ** The exponents met in the code: canonical *)
Lemma canonical_bins_bounds y : canonical y -> 0 < aval y -> B ^ (Z.of_nat (size y) - 1) <= aval y < B ^ Z.of_nat (size y).
Proof.
  intros Cy P. pose proof (size_pos y ltac:(auto)). split; [|apply aval_lt_pw; auto].
  destruct (Nat.eq_dec (size y) 1) as [S1|S1]; [rewrite S1; change (B ^ (Z.of_nat 1 - 1)) with 1; lia|].
  pose proof (trimmed_lower (bins y) (proj2 (proj1 Cy)) ltac:(auto) ltac:(unfold size in *; lia)) as TL.
  unfold pw in TL. unfold aval, size in *. replace (Z.of_nat (length (bins y)) - 1) with (Z.of_nat (length (bins y) - 1)) by lia. lia.
Qed.
Lemma hit_radix_met y j k : canonical y -> 0 < aval y -> (hit (aval y) (Z.of_nat (size y)) j k <-> radix_met (aval y) j k).
Proof.
  intros Cy P. pose proof (canonical_bins_bounds y Cy P) as T. pose proof (size_pos y ltac:(auto)) as Sy.
  set (v := aval y) in *. set (s := Z.of_nat (size y)) in *. assert (Hs : 1 <= s) by (unfold s; lia).
  assert (R : 0 <= j -> 1 <= k -> v / 2 ^ j = B ^ k -> (recognised v s j k <-> (j <= 29 \/ (v / 2 ^ (j - 29)) mod 2 ^ 29 <> 0))).
  { intros Hj Hk E.
    assert (Q : v mod 2 ^ j = 0 -> (s = k + 1 <-> j <= 29)).
    { intros Z0. apply trimmed_bins; try lia. rewrite <- E.
      pose proof (Z.div_mod v (2 ^ j) ltac:(apply Z.pow_nonzero; lia)). lia. }
    unfold recognised. split.
    - intros [[Z0 Es]|[[L _]|[_ M]]]; auto. left. apply Q; auto.
    - intros H. destruct (Z_le_gt_dec j 29) as [L|L].
      + destruct (Z.eq_dec (v mod 2 ^ j) 0) as [Z0|Z0]; [left; split; auto; apply Q; auto|right; left; auto].
      + right. right. split; [lia|]. destruct H as [H|H]; [lia|exact H]. }
  unfold hit, radix_met. split; intros (Hj & Hk & [H|[H H']]); splits; auto; right; split; auto; apply R; auto.
Qed.
Lemma bad_canonical y : canonical y -> (bad y <-> leads_to_2_29 (aval y)).
Proof.
  intros Cy. assert (T : trimmedb (bins y) = true) by (apply trimmedb_spec; [apply Cy|auto]).
  unfold bad. split; [intros [L|[L _]]; [auto|congruence]|auto].
Qed.
Lemma no_radix_met_0 j k : ~ radix_met 0 j k.
Proof.
  intros (Hj & Hk & H). pose proof (small_no_radix 0 ltac:(lia) j k Hj Hk) as [H1 H2]. destruct H as [H|[H _]]; contradiction.
Qed.

Lemma op_pow_exact x y : canonical x -> canonical y -> 0 <= val y ->
  (exists e r, power_taken 0 (val y) e /\ op_pow x y = Ok r /\ canonical r /\ val r = val x ^ e) \/
  (power_stops 0 (val y) /\ op_pow x y = Abort).
Proof.
  intros Cx Cy Py.
  assert (Ny : nonneg y) by (unfold nonneg; rewrite (canonical_neg_eq y Cy); lia).
  rewrite (val_nonneg_aval y Ny) in *. unfold op_pow.
  assert (HR : forall j k, hit (aval y) (Z.of_nat (size y)) j k <-> radix_met (aval y) j k).
  { intros j k. destruct (Z.eq_dec (aval y) 0) as [E|E]; [|apply hit_radix_met; auto; lia]. rewrite E.
    split; intros H; exfalso; [eapply small_no_hit; [|exact H]; lia|eapply no_radix_met_0, H]. }
  assert (Sx : val x = 0 -> negative x = false) by (intros V; rewrite (canonical_neg_eq x Cx); lia).
  destruct (exp_exact x ltac:(auto) ltac:(auto) Sx (exp_fuel y) y ltac:(auto) Ny) as [(e & r & Te & Nb & Er & Cr & Vr)|(Nh & Bd & Er)].
  { pose proof (exp_fuel_enough y (aval y) ltac:(auto) ltac:(lia)). lia. }
  - left. exists e, r. splits; auto. destruct Te as [(j & k & [H M] & ->)|[H ->]].
    + left. exists j, k. splits; auto; [apply H|apply HR, H|]. intros j' k' _ H'. apply (M j' k'), HR, H'.
    + right. splits; auto; [intros j k _ H'; apply (H j k), HR, H'|]. rewrite <- bad_canonical by auto. auto.
  - right. split; auto. split; [intros j k _ H'; apply (Nh j k), HR, H'|]. apply bad_canonical; auto.
Qed.

(** Negative exponents: -m with m even is halved to m/2; an odd one is first moved
    away from zero. *)
Lemma op_pow_even_negative x z m f : canonical x -> canonical z -> val z = - m -> 0 < m -> Z.odd m = false ->
  2 * Z.log2 (m / 2) + (if Z.odd (m / 2) then 1 else 0) + 1 <= Z.of_nat f ->
  (exists e r, power_taken 1 m e /\ exponentiate (S f) x z = Ok r /\ canonical r /\ val r = val x ^ e) \/
  (power_stops 1 m /\ exponentiate (S f) x z = Abort).
Proof.
  intros Cx Cz Vz Hm Om Hf. assert (Hz : wf z) by auto.
  assert (Sx : val x = 0 -> negative x = false) by (intros V; rewrite (canonical_neg_eq x Cx); lia).
  assert (Nz : negative z = true) by (rewrite (canonical_neg_eq z Cz); lia).
  assert (Az : aval z = m) by (rewrite <- abs_val by auto; lia).
  cbn [exponentiate]. rewrite equals_int32_0 by assumption. cbn [bind].
  replace (aval z =? 0) with false by lia.
  rewrite equals_int32_gen by (auto; unfold INT32_MIN, INT32_MAX; lia). rewrite Nz.
  change (Bool.eqb true (1 <? 0) || (1 =? 0)) with false. rewrite andb_false_r. cbn [bind].
  rewrite is_odd_spec by assumption. cbn [bind]. rewrite Vz, Z.odd_opp, Om.
  destruct (divide_by_int_ok z 2 false Hz ltac:(unfold INT32_MAX; lia)) as [h [Eh [Wh [Nh [Sh Vh]]]]].
  rewrite Eh. cbn [bind].
  assert (BD : bad h <-> leads_to_2_29 m).
  { rewrite <- Az, <- bad_canonical by auto. apply bad_half; auto; [rewrite Az; auto|lia]. }
  rewrite Az in Vh.
  assert (Ev : m = 2 * (m / 2)) by (rewrite (Z.div_mod m 2) at 1 by lia; rewrite Zmod_odd, Om; lia).
  assert (HR : forall j k, 0 <= j -> (hit (aval h) (Z.of_nat (size h)) j k <-> radix_met m (j + 1) k)).
  { intros j k Hj. rewrite Vh, Sh, <- hit_half, <- Az by auto. apply hit_radix_met; auto. lia. }
  assert (NR : (forall j k, ~ hit (aval h) (Z.of_nat (size h)) j k) -> forall j k, 1 <= j -> ~ radix_met m j k).
  { intros N j k Hj H. replace j with (j - 1 + 1) in H by lia. apply HR in H; [|lia]. eapply N; eauto. }
  destruct (exp_exact x ltac:(auto) ltac:(auto) Sx f h Wh Nh) as [(e & r & Te & Nb & Er & Cr & Vr)|(Nh' & Bd & Er)].
  { rewrite Vh. exact Hf. }
  - left. rewrite Er. cbn [bind]. destruct (op_mul_ok r r ltac:(auto) ltac:(auto) ltac:(auto) ltac:(auto)) as [p [Ep [Cp Vp]]].
    assert (0 <= e) by (eapply taken_nonneg; [|exact Te]; apply aval_nonneg; auto).
    exists (2 * e), p. splits; auto.
    + destruct Te as [(j & k & [H' M] & ->)|[H' ->]].
      * assert (0 <= j) by apply H'. left. exists (j + 1), k. splits; [lia|apply HR; auto| |].
        -- intros j' k' L R. replace j' with (j' - 1 + 1) in R by lia. apply HR in R; [|lia]. apply M in R. lia.
        -- rewrite Vh, Z.add_1_r, Z.pow_succ_r by lia. rewrite Z.mul_sub_distr_l, <- Ev. ring.
      * right. splits; [apply NR; auto|rewrite <- BD; auto|lia].
    + rewrite Vp, Vr, pow_double by lia. reflexivity.
  - right. rewrite Er. split; auto. split; [apply NR; auto|apply BD, Bd].
Qed.
Lemma power_taken_nonneg lo m e : 0 <= m -> power_taken lo m e -> 0 <= e.
Proof.
  intros Hv [(j & k & L & (Hj & Hk & H) & _ & ->)|[_ [_ ->]]]; auto.
  pose proof (Z.mul_div_le m (2 ^ j) ltac:(apply Z.pow_pos_nonneg; lia)). pose proof (Z.pow_pos_nonneg 2 j ltac:(lia) Hj).
  assert (B ^ k <= m / 2 ^ j) by (destruct H as [H|[H _]]; lia). nia.
Qed.
Lemma op_pow_negative_exact x y n : canonical x -> canonical y -> 0 < n -> val y = - n ->
  (exists e r, power_taken 1 (n + n mod 2) e /\ op_pow x y = Ok r /\ canonical r /\ val r = val x ^ (e + n mod 2)) \/
  (power_stops 1 (n + n mod 2) /\ op_pow x y = Abort).
Proof.
  intros Cx Cy Hn Vy.
  assert (Ny : negative y = true) by (rewrite (canonical_neg_eq y Cy); lia).
  assert (Hy : wf y) by auto.
  assert (Ay : aval y = n) by (rewrite <- abs_val by auto; lia).
  unfold op_pow. destruct (exp_fuel y) as [|f] eqn:Ef.
  { unfold exp_fuel in Ef. lia. }
  assert (FF : forall m, 0 <= m <= B * n + B -> 2 * Z.log2 m + (if Z.odd m then 1 else 0) + 1 <= Z.of_nat f - 1).
  { intros m Hm. pose proof (exp_fuel_enough y m Hy ltac:(lia)). rewrite Ef in H. lia. }
  rewrite Zmod_odd. destruct (Z.odd n) eqn:On.
  - cbn [exponentiate]. rewrite equals_int32_0 by assumption. cbn [bind].
    replace (aval y =? 0) with false by lia.
    rewrite equals_int32_gen by (auto; unfold INT32_MIN, INT32_MAX; lia). rewrite Ny.
    change (Bool.eqb true (1 <? 0) || (1 =? 0)) with false. rewrite andb_false_r. cbn [bind].
    rewrite is_odd_spec by assumption. cbn [bind]. rewrite Vy, Z.odd_opp, On.
    destruct (Int_of_int64_ok 1 0) as [one [Eone [Vone [Cone _]]]]; [unfold INT64_MIN, INT64_MAX; lia|].
    rewrite Eone. cbn [bind]. rewrite pw_0 in Vone.
    destruct (op_sub_ok y one Hy ltac:(auto) ltac:(auto) ltac:(auto)) as [ym [Em [Cm Vm]]].
    rewrite Em. cbn [bind].
    destruct f as [|f]; [specialize (FF 0 ltac:(lia)); cbn in FF; lia|].
    destruct (op_pow_even_negative x ym (n + 1) f Cx Cm) as [(e & r & Te & Er & Cr & Vr)|(St & Er)]; try lia.
    + rewrite Z.odd_add, On. reflexivity.
    + pose proof (FF ((n + 1) / 2) ltac:(Z.to_euclidean_division_equations; lia)). lia.
    + left. rewrite Er. cbn [bind]. destruct (op_mul_ok x r ltac:(auto) ltac:(auto) ltac:(auto) ltac:(auto)) as [p [Ep [Cp Vp]]].
      exists e, p. splits; auto. rewrite Vp, Vr, Z.add_1_r, Z.pow_succ_r; [reflexivity|]. eapply power_taken_nonneg; [|exact Te]. lia.
    + right. split; auto. rewrite Er. reflexivity.
  - rewrite Z.add_0_r. destruct (op_pow_even_negative x y n f Cx Cy) as [(e & r & Te & Er & Cr & Vr)|(St & Er)]; auto.
    + pose proof (FF (n / 2) ltac:(Z.to_euclidean_division_equations; lia)). lia.
    + left. exists e, r. rewrite Z.add_0_r. auto.
Qed.

(** At most one exponent is taken, and none when it stops. *)
Lemma power_taken_unique lo y e e' : power_taken lo y e -> power_taken lo y e' -> e = e'.
Proof.
  intros [(j & k & L & R & M & ->)|[N [_ ->]]] [(j' & k' & L' & R' & M' & ->)|[N' [_ ->]]]; auto;
    try (exfalso; (eapply N; [|eassumption]; assumption) || (eapply N'; [|eassumption]; assumption)).
  pose proof (M _ _ L' R'). pose proof (M' _ _ L R). assert (j' = j) by lia. subst j'.
  destruct R as (Hj & Hk & R), R' as (_ & Hk' & R').
  assert (Ev : forall a b, 1 <= a -> 1 <= b -> B ^ a = B ^ b + 1 -> False).
  { intros a b Ha Hb E. pose proof (radix_even a Ha) as Oa. rewrite E, Z.odd_add, radix_even in Oa by lia. discriminate. }
  assert (B ^ k = B ^ k').
  { destruct R as [R|[R _]], R' as [R'|[R' _]]; try lia; exfalso; [apply (Ev k' k)|apply (Ev k k')]; lia. }
  congruence.
Qed.
Lemma power_taken_stops lo y e : power_taken lo y e -> ~ power_stops lo y.
Proof. intros [(j & k & L & R & M & ->)|[N [NL ->]]] [N' L']; [eapply N'; eauto|auto]. Qed.
(** The exponent taken falls short of the one asked for unless no radix power is met. *)
Lemma power_taken_less lo y e : power_taken lo y e -> e <= y /\ (e = y <-> forall j k, lo <= j -> ~ radix_met y j k).
Proof.
  intros [(j & k & L & R & M & ->)|[N [NL ->]]]; [|split; [lia|split; auto]].
  destruct (R) as (Hj & Hk & _). pose proof (Z.pow_pos_nonneg 2 j ltac:(lia) Hj).
  pose proof (Z.pow_gt_1 B k ltac:(lia)). assert (1 < B ^ k) by (apply H0; lia).
  split; [nia|]. split; [intros; nia|]. intros N. exfalso. eapply N; eauto.
Qed.

Lemma exact_exponent_taken y e : exact_exponent y -> power_taken 0 y e -> e = y.
Proof. intros [N _] T. apply (power_taken_less _ _ _ T). intros j k _. apply N. Qed.
Lemma op_pow_right x y : canonical x -> canonical y -> 0 <= val y -> exact_exponent (val y) ->
  exists r, op_pow x y = Ok r /\ canonical r /\ val r = val x ^ val y.
Proof.
  intros Cx Cy Py G. destruct (op_pow_exact x y Cx Cy Py) as [(e & r & T & E & C & V)|[[_ L] _]]; [|destruct G; contradiction].
  exists r. rewrite (exact_exponent_taken _ _ G T) in V. auto.
Qed.
Lemma small_exact_exponent y : 0 <= y < 10 ^ 9 -> exact_exponent y.
Proof.
  change (10 ^ 9) with B. intros H. split; [|apply small_no_leads; lia].
  intros j k (Hj & Hk & R). destruct (small_no_radix y H j k Hj Hk). destruct R as [R|[R _]]; auto.
Qed.
