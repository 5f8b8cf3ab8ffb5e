(** Property theorems about Int arithmetic (ids as in properties.jsonl).
    [val x] is the integer an Int denotes, [canonical x] says its
    representation is the unique normal form (IntSpec.v). *)
From Coq Require Import ZifyBool.
From Verif Require Import Base IntModel IntSpec IntBasics IntAddSub IntMul IntDiv IntMod IntScale IntPowDefined.

(* concrete Ints used in the examples *)
Definition i (z : Z) : Int := match Int_of_int64 z 0 with Ok x => x | _ => mkInt [] false end.
Definition ten18 : Int := mkInt [0; 0; 1] false.
Definition ten9 : Int := mkInt [0; 1] false.
Definition big : Int := mkInt [7; 0; 123456789; 42] true.
Ltac ex := apply canonicalb_spec; vm_compute; reflexivity.
Lemma wfb_spec x : wfb x = true -> wf x.
Proof.
  unfold wfb, wf. rewrite andb_true_iff. intros [H1 H2]. split.
  - destruct (bins x); [discriminate|congruence].
  - apply Forall_forall. intros b Hb. rewrite forallb_forall in H2. specialize (H2 b Hb).
    unfold digit_okb in H2. unfold digit_ok. lia.
Qed.
Ltac exw := apply wfb_spec; vm_compute; reflexivity.
Lemma ten18_c : canonical ten18. Proof. ex. Qed.
Lemma ten9_c : canonical ten9. Proof. ex. Qed.
Lemma big_c : canonical big. Proof. ex. Qed.

(** ** C01 *)
Theorem C01_from_int64 : forall k, INT64_MIN < k <= INT64_MAX ->
  exists x, Int_of_int64 k 0 = Ok x /\ canonical x /\ val x = k.
Proof.
  intros k Hk. destruct (Int_of_int64_ok k 0 Hk) as (r & H1 & H2 & H3 & _).
  exists r. splits; auto. rewrite H2, pw_0. lia.
Qed.
Theorem C01_int64_min_undefined : forall s, Int_of_int64 INT64_MIN s = UB.
Proof. intros s. reflexivity. Qed.
Example C01_ex : Int_of_int64 (-9223372036854775807) 0 = Ok (mkInt [854775807; 223372036; 9] true) /\ Int_of_int64 1000000000 0 = Ok (mkInt [0; 1] false).
Proof. vm_compute. auto. Qed.
Print Assumptions C01_from_int64.

(** ** C02 *)
Theorem C02_shift_int64 : forall k s, INT64_MIN < k <= INT64_MAX ->
  exists x, Int_of_int64 k s = Ok x /\ canonical x /\ val x = k * 10 ^ (9 * Z.of_nat s).
Proof.
  intros k s Hk. destruct (Int_of_int64_ok k s Hk) as (r & H1 & H2 & H3 & _).
  exists r. splits; auto. rewrite H2. unfold pw. rewrite Z.pow_mul_r by lia. reflexivity.
Qed.
Theorem C02_shift_Int : forall x s, wf x ->
  wf (Int_shifted x s) /\ val (Int_shifted x s) = val x * 10 ^ (9 * Z.of_nat s) /\
  (canonical x -> val x <> 0 -> canonical (Int_shifted x s)).
Proof.
  intros x s Hx. destruct (Int_shifted_spec x s Hx) as (H1 & H2 & H3 & H4).
  assert (Hp : val (Int_shifted x s) = val x * 10 ^ (9 * Z.of_nat s)).
  { rewrite H2. unfold pw. rewrite Z.pow_mul_r by lia. reflexivity. }
  splits; auto. intros Hc Hz.
  assert (Ha : aval x <> 0) by (rewrite val_aval in Hz; destruct (negative x); lia).
  unfold canonical. splits; auto.
  intros _. rewrite Hp. pose proof (Z.pow_pos_nonneg 10 (9 * Z.of_nat s)). nia.
Qed.
(** A shifted zero keeps its zero bins when built from an Int, not from an int64. *)
Theorem C02_shift_zero_not_canonical : forall s, (s > 0)%nat -> ~ canonical (Int_shifted Int_default s).
Proof.
  intros s Hs (_ & (_ & Ht) & _). apply Ht; cbn; rewrite ?app_length, ?repeat_length; cbn; try lia.
  rewrite last_last. reflexivity.
Qed.
Example C02_ex : Int_shifted big 2 = mkInt [0; 0; 7; 0; 123456789; 42] true /\ canonical big.
Proof. split; [reflexivity|exact big_c]. Qed.
Print Assumptions C02_shift_int64.
Print Assumptions C02_shift_Int.

(** ** C07 *)
Theorem C07_comparisons : forall x y, wf x -> wf y ->
  op_lt x y = Ok (val x <? val y) /\ op_gt x y = Ok (val x >? val y) /\
  op_le x y = Ok (val x <=? val y) /\ op_ge x y = Ok (val x >=? val y) /\
  op_eq x y = Ok (val x =? val y) /\ op_ne x y = Ok (negb (val x =? val y)) /\
  cmp x y = Ok (Z.sgn (val x - val y)).
Proof.
  intros x y Hx Hy. splits.
  - exact (op_lt_spec x y Hx Hy).
  - exact (op_gt_spec x y Hx Hy).
  - exact (op_le_spec x y Hx Hy).
  - exact (op_ge_spec x y Hx Hy).
  - exact (op_eq_spec x y Hx Hy).
  - exact (op_ne_spec x y Hx Hy).
  - exact (cmp_spec x y Hx Hy).
Qed.
(** == on canonical Ints is identity of the representation. *)
Theorem C07_canonical_eq : forall x y, canonical x -> canonical y -> (op_eq x y = Ok true <-> x = y).
Proof.
  intros x y Hx Hy. rewrite op_eq_spec by auto. split.
  - intros H. apply canonical_unique_lemma; auto. injection H. lia.
  - intros ->. f_equal. lia.
Qed.
Example C07_ex : wf (mkInt [5; 1; 0; 0] true) /\ wf (mkInt [6; 1] true) /\
  op_gt (mkInt [5; 1; 0; 0] true) (mkInt [6; 1] true) = Ok true /\
  op_eq (mkInt [0; 0] true) (mkInt [0] false) = Ok true.
Proof. splits; [exw|exw|vm_compute; reflexivity..]. Qed.
Print Assumptions C07_comparisons.
Print Assumptions C07_canonical_eq.

(** ** C08, C09, C10 *)
Theorem C08_add : forall x y, canonical x -> canonical y ->
  exists r, op_add x y = Ok r /\ canonical r /\ val r = val x + val y.
Proof. intros x y Hx Hy. apply op_add_ok; auto. Qed.
Theorem C09_sub : forall x y, canonical x -> canonical y ->
  exists r, op_sub x y = Ok r /\ canonical r /\ val r = val x - val y.
Proof. intros x y Hx Hy. apply op_sub_ok; auto. Qed.
Theorem C10_mul : forall x y, canonical x -> canonical y ->
  exists r, op_mul x y = Ok r /\ canonical r /\ val r = val x * val y.
Proof. intros x y Hx Hy. apply op_mul_ok; auto. Qed.
(** Outside canonical form multiplication is still exact, addition is exact
    unless it stops at the assertion of subtract. *)
Theorem C10_mul_any : forall x y, wf x -> wf y ->
  exists r, op_mul x y = Ok r /\ wf r /\ val r = val x * val y /\ (val r = 0 -> negative r = false).
Proof.
  intros x y Hx Hy. destruct (op_mul_gen x y Hx Hy) as (r & H1 & H2 & H3 & H4 & _). eauto.
Qed.
Theorem C08_C09_any : forall x y, wf x -> wf y ->
  (op_add x y = Abort \/ exists r, op_add x y = Ok r /\ wf r /\ val r = val x + val y) /\
  (op_sub x y = Abort \/ exists r, op_sub x y = Ok r /\ wf r /\ val r = val x - val y).
Proof.
  intros x y Hx Hy. split.
  - pose proof (op_add_gen x y Hx Hy) as H. destruct (negb _ && _); auto. right.
    destruct H as (r & H1 & H2 & H3 & _). eauto.
  - pose proof (op_sub_gen x y Hx Hy) as H. destruct (_ && _); auto. right.
    destruct H as (r & H1 & H2 & H3 & _). eauto.
Qed.
Example C08_ex : op_add big (mkInt [999999993; 999999999; 876543210; 957] false)
  = Ok (mkInt [999999986; 999999999; 753086421; 915] false).
Proof. vm_compute. reflexivity. Qed.
Example C09_ex : op_sub ten18 (i 1) = Ok (mkInt [999999999; 999999999] false).
Proof. vm_compute. reflexivity. Qed.
Example C10_ex : op_mul big (i (-1000000001)) = Ok (mkInt [7; 7; 123456789; 123456831; 42] false).
Proof. vm_compute. reflexivity. Qed.
Example C10_ex_zero : op_mul big (i 0) = Ok (mkInt [0] false).
Proof. vm_compute. reflexivity. Qed.
Print Assumptions C08_add.
Print Assumptions C09_sub.
Print Assumptions C10_mul.
Print Assumptions C10_mul_any.
Print Assumptions C08_C09_any.

(** ** C11 *)
Inductive aop := Add | Sub | Mul | Div | Mod | Pow.
Definition binary (o : aop) : Int -> Int -> res Int :=
  match o with Add => op_add | Sub => op_sub | Mul => op_mul | Div => op_div | Mod => op_mod | Pow => op_pow end.
Definition assign (o : aop) : Int -> option Int -> res Int :=
  match o with Add => add_assign | Sub => sub_assign | Mul => mul_assign | Div => div_assign
             | Mod => mod_assign | Pow => pow_assign end.
(** Both return Ints that denote the same integer, or both fail the same way. *)
Definition same_outcome (a b : res Int) : Prop :=
  match a, b with
  | Ok x, Ok y => wf x /\ wf y /\ val x = val y
  | Throw e, Throw f => e = f
  | Abort, Abort => True
  | _, _ => False
  end.
Lemma same_outcome_refl m : (exists e, m = Throw e) \/ m = Abort \/ (exists r, m = Ok r /\ canonical r) -> same_outcome m m.
Proof. intros [[e ->]|[->|(r & -> & Hr)]]; cbn; auto. Qed.
Lemma op_div_cases x y : canonical x -> canonical y ->
  (val y = 0 /\ op_div x y = Throw DivideByZero) \/ (val y <> 0 /\ ~ div_safe (Z.abs (val x)) (Z.abs (val y)) /\ op_div x y = Abort) \/
  (val y <> 0 /\ div_safe (Z.abs (val x)) (Z.abs (val y)) /\ exists r, op_div x y = Ok r /\ canonical r /\ val r = Z.quot (val x) (val y)).
Proof.
  intros Hx Hy. destruct (Z.eq_dec (val y) 0) as [E|E].
  - left. split; auto. apply divide_by_zero; auto.
  - right. destruct (div_safe_dec (Z.abs (val x)) (Z.abs (val y))); [lia| |].
    + right. splits; auto. apply divide_safe; auto.
    + left. splits; auto. apply divide_unsafe; auto.
Qed.
Lemma op_mod_cases x y : canonical x -> canonical y ->
  (val y = 0 /\ op_mod x y = Throw DivideByZero) \/ (val y <> 0 /\ ~ div_safe (Z.abs (val x)) (Z.abs (val y)) /\ op_mod x y = Abort) \/
  (val y <> 0 /\ div_safe (Z.abs (val x)) (Z.abs (val y)) /\ exists r, op_mod x y = Ok r /\ canonical r /\ val r = val x mod val y).
Proof.
  intros Hx Hy. destruct (Z.eq_dec (val y) 0) as [E|E].
  - left. split; auto. apply op_mod_zero; auto.
  - right. destruct (div_safe_dec (Z.abs (val x)) (Z.abs (val y))); [lia| |].
    + right. splits; auto. apply op_mod_ok; auto.
    + left. splits; auto. apply op_mod_unsafe; auto.
Qed.
Lemma canonical_zero_sign x : canonical x -> val x = 0 -> negative x = false.
Proof. intros (_ & _ & H) Hz. destruct (negative x); auto. exfalso. apply H; auto. Qed.
Theorem C11_assign_agrees : forall o x (other : option Int),
  canonical x -> (forall y, other = Some y -> canonical y) ->
  same_outcome (assign o x other) (binary o x (rd x other)).
Proof.
  intros o x other Hx Ho.
  assert (Hr : canonical (rd x other)) by (destruct other; cbn; auto).
  destruct o; cbn [assign binary].
  - destruct (addsub_assign_ok false x other) as (r & H1 & H2 & H3); auto.
    destruct (op_add_ok x (rd x other)) as (r2 & H4 & H5 & H6); auto.
    unfold add_assign. rewrite H1, H4. cbn. splits; auto. congruence.
  - destruct (addsub_assign_ok true x other) as (r & H1 & H2 & H3); auto.
    destruct (op_sub_ok x (rd x other)) as (r2 & H4 & H5 & H6); auto.
    unfold sub_assign. rewrite H1, H4. cbn. splits; auto. congruence.
  - destruct (mul_assign_ok x other) as (r & H1 & H2 & H3 & _); auto.
    destruct (op_mul_ok x (rd x other)) as (r2 & H4 & H5 & H6); auto.
    rewrite H1, H4. cbn. splits; auto. congruence.
  - change (div_assign x other) with (op_div x (rd x other)). apply same_outcome_refl.
    destruct (op_div_cases x (rd x other)) as [[_ H]|[(_ & _ & H)|(_ & _ & r & H & Hc & _)]]; eauto 6.
  - change (mod_assign x other) with (op_mod x (rd x other)). apply same_outcome_refl.
    destruct (op_mod_cases x (rd x other)) as [[_ H]|[(_ & _ & H)|(_ & _ & r & H & Hc & _)]]; eauto 6.
  - change (pow_assign x other) with (op_pow x (rd x other)). apply same_outcome_refl.
    destruct (op_pow_defined x (rd x other)) as [H|H]; auto using canonical_zero_sign.
Qed.
(** x -= x, x /= x, x %= x on the same object. *)
Theorem C11_self : forall x, canonical x ->
  (exists r, sub_assign x None = Ok r /\ val r = 0 /\ canonical r) /\
  (exists r, add_assign x None = Ok r /\ val r = 2 * val x /\ canonical r) /\
  (exists r, mul_assign x None = Ok r /\ val r = val x * val x).
Proof.
  intros x Hx. splits.
  - destruct (addsub_assign_ok true x None) as (r & H1 & H2 & H3); auto; [discriminate|].
    exists r. cbn in H3. splits; auto. lia.
  - destruct (addsub_assign_ok false x None) as (r & H1 & H2 & H3); auto; [discriminate|].
    exists r. cbn in H3. splits; auto. lia.
  - destruct (mul_assign_ok x None) as (r & H1 & H2 & H3 & _); auto; [discriminate|]. eauto.
Qed.
Example C11_ex : sub_assign big None = Ok (mkInt [0] false) /\ add_assign big None = op_add big big.
Proof. vm_compute. auto. Qed.
Print Assumptions C11_assign_agrees.
Print Assumptions C11_self.

(** ** C12 : false of the code *)
Theorem C12_division_refuted : exists x y, canonical x /\ canonical y /\ val y <> 0 /\
  op_div x y = Abort /\ val x = 10 ^ 18 /\ val y = 10 ^ 9.
Proof. exists ten18, ten9. splits; [ex|ex|discriminate|vm_compute; reflexivity..]. Qed.
(** Missing from the full statement: that x / y always returns (see C13). *)
Theorem C12_division_partial : forall x y r, canonical x -> canonical y -> val y <> 0 ->
  op_div x y = Ok r -> canonical r /\ val r = Z.quot (val x) (val y).
Proof.
  intros x y r Hx Hy Hz H.
  destruct (op_div_cases x y Hx Hy) as [[E _]|[(_ & _ & H2)|(_ & _ & r2 & H2 & Hc & Hv)]]; try congruence.
  rewrite H in H2. injection H2 as ->. auto.
Qed.
Example C12_ex : op_div (mkInt [0; 5; 1] true) (i 7) = Ok (mkInt [571428571; 142857143] true)
  /\ val (mkInt [571428571; 142857143] true) = Z.quot (- (10 ^ 18 + 5 * 10 ^ 9)) 7.
Proof. vm_compute. auto. Qed.
Print Assumptions C12_division_refuted.
Print Assumptions C12_division_partial.

(** ** C13 : the exact domain on which division returns *)
Theorem C13_division_exact : forall x y, canonical x -> canonical y -> val y <> 0 ->
  (div_safe (Z.abs (val x)) (Z.abs (val y)) ->
     exists r, op_div x y = Ok r /\ canonical r /\ val r = Z.quot (val x) (val y)) /\
  (~ div_safe (Z.abs (val x)) (Z.abs (val y)) -> op_div x y = Abort).
Proof. intros x y Hx Hy Hz. split; intros H; [apply divide_safe|apply divide_unsafe]; auto. Qed.
Theorem C13_small_dividends : forall x y, canonical x -> canonical y -> val y <> 0 ->
  Z.abs (val x) < 10 ^ 18 ->
  exists r, op_div x y = Ok r /\ canonical r /\ val r = Z.quot (val x) (val y).
Proof. intros x y Hx Hy Hz Hs. apply divide_safe; auto. apply div_safe_small. lia. Qed.
(** No divisor can be trusted: for every divisor there is a dividend that aborts. *)
Theorem C13_every_divisor_can_abort : forall y, canonical y -> 2 <= Z.abs (val y) ->
  exists x, canonical x /\ op_div x y = Abort.
Proof.
  intros y Hy Hz.
  set (k := Z.log2 (Z.abs (val y)) + 2).
  assert (Hk : 2 <= k) by (pose proof (Z.log2_nonneg (Z.abs (val y))); lia).
  destruct (canonical_exists (B ^ k)) as (x & Hx & Hv).
  exists x. split; auto. apply divide_unsafe; auto; [lia|].
  rewrite Hv. assert (HB : 0 < B ^ k) by (apply Z.pow_pos_nonneg; lia).
  rewrite Z.abs_eq by lia. intros [H|H].
  - pose proof (Z.log2_spec (Z.abs (val y))) as [_ Hl]; [lia|].
    assert (2 ^ Z.succ (Z.log2 (Z.abs (val y))) <= B ^ k).
    { transitivity (B ^ Z.succ (Z.log2 (Z.abs (val y)))).
      - apply Z.pow_le_mono_l. lia.
      - apply Z.pow_le_mono_r; lia. }
    lia.
  - apply (H (k - 1)); [lia| | |].
    + replace (k - 1 + 1) with k by lia. lia.
    + replace (k - 1 + 1) with k by lia. rewrite Z.div_same by lia. lia.
    + replace (B ^ k) with (B * B ^ (k - 1)) by (rewrite <- Z.pow_succ_r by lia; f_equal; lia).
      rewrite Z.div_mul by (apply Z.pow_nonzero; lia). reflexivity.
Qed.
Example C13_ex_safe : canonical big /\ canonical (i 3) /\ div_safe (Z.abs (val (mkInt [0; 5; 1] true))) (Z.abs (val (i 7))).
Proof.
  splits; try ex. right. intros j Hj Hl _.
  assert (j = 1).
  { destruct (Z.eq_dec j 1); auto. assert (B ^ 3 <= B ^ (j + 1)) by (apply Z.pow_le_mono_r; lia).
    exfalso. assert (B ^ 3 <= Z.abs (val (mkInt [0; 5; 1] true))) by lia.
    vm_compute in H0. apply H0. reflexivity. }
  subst j. vm_compute. discriminate.
Qed.
Example C13_ex_unsafe : ~ div_safe (Z.abs (val ten18)) (Z.abs (val ten9)).
Proof. intros [H|H]; [vm_compute in H; discriminate|]. apply (H 1); vm_compute; congruence. Qed.
Print Assumptions C13_division_exact.
Print Assumptions C13_small_dividends.
Print Assumptions C13_every_divisor_can_abort.

(** ** C14 *)
Theorem C14_divide_by_zero : forall x y, canonical x -> canonical y ->
  (val y = 0 <-> op_div x y = Throw DivideByZero) /\
  (val y = 0 <-> op_mod x y = Throw DivideByZero) /\
  (forall e, op_div x y = Throw e -> e = DivideByZero) /\
  (forall e, op_mod x y = Throw e -> e = DivideByZero).
Proof.
  intros x y Hx Hy.
  destruct (op_div_cases x y Hx Hy) as [[E H1]|[(E & _ & H1)|(E & _ & r & H1 & _)]];
  destruct (op_mod_cases x y Hx Hy) as [[E' H2]|[(E' & _ & H2)|(E' & _ & r' & H2 & _)]];
  rewrite H1, H2; splits; try split; intros; try congruence; contradiction.
Qed.
Theorem C14_in_place : forall x y, canonical x -> canonical y -> val y = 0 ->
  div_assign_st x (Some y) = (x, Throw DivideByZero) /\ mod_assign_st x (Some y) = (x, Throw DivideByZero) /\
  (val x = 0 -> div_assign_st x None = (x, Throw DivideByZero) /\ mod_assign_st x None = (x, Throw DivideByZero)).
Proof.
  intros x y Hx Hy Hz. unfold div_assign_st, mod_assign_st, div_assign, mod_assign.
  splits; cbn [rd].
  - rewrite divide_by_zero; auto.
  - change (modulo x y) with (op_mod x y). rewrite op_mod_zero; auto.
  - intros Hx0. change (modulo x x) with (op_mod x x). rewrite divide_by_zero, op_mod_zero; auto.
Qed.
Example C14_ex : div_assign_st big (Some (i 0)) = (big, Throw DivideByZero) /\ canonical (i 0) /\ val (i 0) = 0.
Proof. splits; [vm_compute; reflexivity|ex|reflexivity]. Qed.
Print Assumptions C14_divide_by_zero.
Print Assumptions C14_in_place.

(** ** C15 *)
Theorem C15_modulus : forall x y, canonical x -> canonical y -> val y <> 0 ->
  (div_safe (Z.abs (val x)) (Z.abs (val y)) ->
     exists r, op_mod x y = Ok r /\ canonical r /\ val r = val x - val y * (val x / val y) /\
       (0 <= val r < val y \/ val y < val r <= 0)) /\
  (~ div_safe (Z.abs (val x)) (Z.abs (val y)) -> op_mod x y = Abort).
Proof.
  intros x y Hx Hy Hz. split; intros H.
  - destruct (op_mod_ok x y) as (r & H1 & H2 & H3); auto. exists r. splits; auto.
    + rewrite H3. rewrite Z.mod_eq; lia.
    + rewrite H3. destruct (Z.lt_ge_cases (val y) 0).
      * right. pose proof (Z.mod_neg_bound (val x) (val y)). lia.
      * left. pose proof (Z.mod_pos_bound (val x) (val y)). lia.
  - apply op_mod_unsafe; auto.
Qed.
Example C15_ex : op_mod (i (-7)) (i 3) = Ok (i 2) /\ op_mod (i 7) (i (-3)) = Ok (i (-2)) /\
  op_mod (mkInt [0; 5; 1] true) (i 7) = Ok (i 4).
Proof. vm_compute. auto. Qed.
Print Assumptions C15_modulus.

(** ** C16 *)
Theorem C16_quotient_remainder : forall x y q m, canonical x -> canonical y -> val y <> 0 ->
  op_div x y = Ok q -> op_mod x y = Ok m ->
  exists p s, op_mul q y = Ok p /\ op_add p m = Ok s /\
    (op_eq s x = Ok true <-> (0 <= val x * val y \/ (val y | val x))) /\
    (~ (0 <= val x * val y \/ (val y | val x)) -> val s = val x + val y).
Proof.
  intros x y q m Hx Hy Hz Hq Hm.
  destruct (op_div_cases x y Hx Hy) as [[E H2]|[(_ & _ & H2)|(_ & Hs & r2 & H2 & Hc & Hv)]]; try congruence.
  destruct (op_mod_cases x y Hx Hy) as [[E H3]|[(_ & _ & H3)|(_ & _ & r3 & H3 & Hc3 & Hv3)]]; try congruence.
  rewrite Hq in H2; injection H2 as <-. rewrite Hm in H3; injection H3 as <-.
  destruct (op_mul_ok q y) as (p & Hp & Hpc & Hpv); auto.
  destruct (op_add_ok p m) as (s & Hs2 & Hsc & Hsv); auto.
  exists p, s. splits; auto.
  - rewrite op_eq_spec by auto.
    rewrite Hsv, Hpv, Hv, Hv3.
    assert (Hd : (val y | val x) <-> Z.rem (val x) (val y) = 0) by (rewrite Z.rem_divide by auto; tauto).
    rewrite Hd. clear -Hz.
    generalize dependent (val y); generalize (val x). intros a b Hb.
    split.
    + intros H. assert (E : Z.quot a b * b + a mod b = a) by (injection H; lia).
      destruct (Z.eq_dec (Z.rem a b) 0); auto. left.
      pose proof (Z.quot_rem' a b). rewrite Z.mod_eq in E by auto.
      assert (Z.quot a b = a / b) by nia.
      destruct (Z.lt_ge_cases (a * b) 0); [|lia]. exfalso.
      assert (Z.rem a b = a mod b) by (rewrite Z.mod_eq by auto; lia).
      pose proof (Z.rem_sign_mul a b Hb).
      destruct (Z.lt_ge_cases b 0).
      * pose proof (Z.mod_neg_bound a b). assert (Z.rem a b <= 0) by lia. nia.
      * pose proof (Z.mod_pos_bound a b). assert (0 <= Z.rem a b) by lia. nia.
    + intros H. f_equal. apply Z.eqb_eq.
      assert (Z.quot a b = a / b).
      { destruct H as [H|H].
        - destruct (Z.lt_ge_cases b 0).
          + rewrite <- (Z.opp_involutive a), <- (Z.opp_involutive b).
            rewrite Z.quot_opp_opp, Z.div_opp_opp by lia. rewrite Z.quot_div_nonneg; nia.
          + rewrite Z.quot_div_nonneg; nia.
        - pose proof (Z.quot_rem' a b). rewrite H in H0.
          assert (a = Z.quot a b * b) by lia. rewrite H1 at 2. rewrite Z.div_mul; auto. }
      rewrite H0. pose proof (Z.div_mod a b Hb). lia.
  - intros Hn. rewrite Hsv, Hpv, Hv, Hv3.
    assert (Hd : ~ (Z.rem (val x) (val y) = 0)) by (rewrite Z.rem_divide by auto; tauto).
    assert (Hl : val x * val y < 0) by lia.
    clear -Hz Hd Hl. generalize dependent (val y); generalize (val x). intros a b Hb Hd Hl.
    pose proof (Z.quot_rem' a b).
    assert (a / b = Z.quot a b - 1).
    { pose proof (Z.rem_sign_mul a b Hb).
      pose proof (Z.rem_bound_abs a b Hb).
      symmetry. 
      destruct (Z.lt_ge_cases b 0).
      - apply (Z.div_unique_neg a b _ (Z.rem a b + b)); nia.
      - apply (Z.div_unique_pos a b _ (Z.rem a b + b)); nia. }
    rewrite Z.mod_eq by auto. rewrite H0. lia.
Qed.
Example C16_ex : op_div (i (-7)) (i 2) = Ok (i (-3)) /\ op_mod (i (-7)) (i 2) = Ok (i 1) /\
  canonical (i (-7)) /\ canonical (i 2).
Proof. splits; [vm_compute; reflexivity|vm_compute; reflexivity|ex|ex]. Qed.
Print Assumptions C16_quotient_remainder.

(** ** C17 : false of the code *)
Theorem C17_pow_refuted_wrong : exists x y r, canonical x /\ canonical y /\ 0 <= val y /\
  op_pow x y = Ok r /\ val r = -1 /\ val x ^ val y = 1.
Proof.
  exists (i (-1)), ten9, (i (-1)). splits; [ex|ex|discriminate|vm_compute; reflexivity..|].
  change (val (i (-1))) with (-1). change (val ten9) with (2 * 500000000).
  rewrite Z.pow_mul_r by lia. change ((-1) ^ 2) with 1. apply Z.pow_1_l. lia.
Qed.
Lemma pow_1073741824_abort x : canonical x -> op_pow x (mkInt [73741824; 1] false) = Abort.
Proof.
  intros Hx. apply op_pow_abort; auto using canonical_zero_sign; try ex; [vm_compute; discriminate| |].
  - change (val (mkInt [73741824; 1] false)) with (2 ^ 30). intros j k Hj Hk.
    assert (Hp : (5 | B ^ k)).
    { replace k with (1 + (k - 1)) by lia. rewrite Z.pow_add_r by lia. exists (200000000 * B ^ (k - 1)). lia. }
    assert (Hh : 2 ^ 30 / 2 ^ j < B \/ j = 0).
    { destruct (Z.eq_dec j 0); auto. left. apply Z.div_lt_upper_bound; [apply Z.pow_pos_nonneg; lia|].
      assert (2 ^ 1 <= 2 ^ j) by (apply Z.pow_le_mono_r; lia). lia. }
    assert (HBk : B ^ 1 <= B ^ k) by (apply Z.pow_le_mono_r; lia).
    destruct Hh as [Hh| ->]; [lia|]. change (2 ^ 30 / 2 ^ 0) with 1073741824.
    destruct Hp as [c Hc]. lia.
  - exists 1. change (val (mkInt [73741824; 1] false)) with (2 ^ 30). split; [lia|reflexivity].
Qed.
Theorem C17_pow_refuted_abort : forall x, canonical x ->
  exists y, canonical y /\ val y = 2 ^ 30 /\ op_pow x y = Abort.
Proof.
  intros x Hx. exists (mkInt [73741824; 1] false). splits; [ex|reflexivity|]. apply pow_1073741824_abort; auto.
Qed.
(** Missing from the full statement: exponents that pass through a power of
    10^9 (C18) or whose leading bits are those of 2^30 (C59). *)
Theorem C17_pow_partial : forall x y, canonical x -> canonical y -> 0 <= val y ->
  no_radix_power (val y) -> ~ leads_to_2_29 (val y) ->
  exists r, op_pow x y = Ok r /\ canonical r /\ val r = val x ^ val y.
Proof. intros x y Hx Hy H0 H1 H2. apply op_pow_ok; auto using canonical_zero_sign. Qed.
Example C17_ex : op_pow (i (-3)) (i 41) = Ok (mkInt [170786403; 472996377; 36] true).
Proof. vm_compute. reflexivity. Qed.
Print Assumptions C17_pow_refuted_wrong.
Print Assumptions C17_pow_refuted_abort.
Print Assumptions C17_pow_partial.

(** ** C18 *)
Theorem C18_pow_below_radix : forall x y, canonical x -> canonical y -> 0 <= val y < 10 ^ 9 ->
  exists r, op_pow x y = Ok r /\ canonical r /\ val r = val x ^ val y.
Proof.
  intros x y Hx Hy Hr. apply op_pow_ok; auto using canonical_zero_sign; [lia| |].
  - apply small_no_radix. lia.
  - apply small_no_leads. lia.
Qed.
Theorem C18_pow_radix : forall x y k, canonical x -> canonical y -> (1 <= k)%nat ->
  val y = 10 ^ (9 * Z.of_nat k) -> op_pow x y = Ok x.
Proof.
  intros x y k Hx Hy Hk Hv. apply (op_pow_radix x y k Hk).
  - assert (Hc : canonical (mkInt (repeat 0 k ++ [1]) false)).
    { apply mk_canonical; [|apply trimmed_app_nz; lia|discriminate].
      apply Forall_app. split; [apply Forall_repeat0|]. constructor; auto. split; lia. }
    assert (Hval : val (mkInt (repeat 0 k ++ [1]) false) = 10 ^ (9 * Z.of_nat k)).
    { unfold val; cbn [negative bins]. rewrite bins_val_app, bins_val_repeat, repeat_length.
      unfold pw. change (bins_val [1]) with 1. rewrite Z.pow_mul_r by lia. change (10 ^ 9) with B. lia. }
    rewrite (canonical_unique_lemma y _ Hy Hc); [reflexivity|congruence].
  - rewrite canonical_neg_eq by auto. pose proof (Z.pow_pos_nonneg 10 (9 * Z.of_nat k)). lia.
Qed.
Example C18_ex : val ten9 = 10 ^ (9 * Z.of_nat 1) /\ op_pow (i 2) ten9 = Ok (i 2).
Proof. vm_compute. auto. Qed.
Print Assumptions C18_pow_below_radix.
Print Assumptions C18_pow_radix.

(** ** C59 *)
Theorem C59_pow_abort : forall x y, canonical x -> canonical y -> 0 <= val y ->
  no_radix_power (val y) -> leads_to_2_29 (val y) -> op_pow x y = Abort.
Proof. intros x y Hx Hy H0 H1 H2. apply op_pow_abort; auto using canonical_zero_sign. Qed.
Example C59_ex : op_pow (i 2) (mkInt [73741824; 1] false) = Abort /\ val (mkInt [73741824; 1] false) = 2 ^ 30.
Proof. split; [apply pow_1073741824_abort; ex|reflexivity]. Qed.
Print Assumptions C59_pow_abort.

(** ** C19 *)
Theorem C19_negative_exponent : forall x y n, canonical x -> canonical y -> 0 < n < 10 ^ 9 -> val y = - n ->
  exists r, op_pow x y = Ok r /\ canonical r /\ val r = val x ^ (if Z.even n then n else n + 2).
Proof. intros x y n Hx Hy Hn Hv. apply op_pow_negative; auto using canonical_zero_sign. Qed.
Example C19_ex : op_pow (i 2) (i (-1)) = Ok (i 8) /\ op_pow (i 2) (i (-2)) = Ok (i 4).
Proof. vm_compute. auto. Qed.
Print Assumptions C19_negative_exponent.

(** ** C20 : exact for p >= 0, false for p < 0 *)
Theorem C20_scale_up_partial : forall x p, canonical x -> 0 <= p ->
  exists r, times_power_ten x p = Ok r /\ wf r /\ val r = val x * 10 ^ p /\
    (canonical r <-> (val x <> 0 \/ p < 9)).
Proof.
  intros x p Hx Hp. destruct (Z.eq_dec p 0) as [->|E].
  { exists x. rewrite tpt_0. splits; auto; [rewrite Z.pow_0_r; lia|]. split; auto. intros _. right. lia. }
  destruct (tpt_pos x p) as (r & H1 & H2 & H3 & H4 & H5); auto; [lia|].
  exists r. splits; auto. split.
  - intros Hc. destruct (Z.eq_dec (val x) 0) as [E0|]; auto. right.
    assert (x = mkInt [0] false) as -> by (apply canonical_unique_lemma; auto; apply canonical_zero).
    assert (val r = 0) by (rewrite H3; cbn; lia).
    assert (r = mkInt [0] false) as -> by (apply canonical_unique_lemma; auto; apply canonical_zero).
    unfold times_power_ten in H1. replace (p >? 0) with true in H1 by lia.
    destruct (iter_mul10 _ _) as [t| | | |] eqn:Et; try discriminate.
    rewrite bind_ok in H1.
    destruct (iter_mul10_ok (Z.to_nat (Z.rem p BIN_WIDTH)) (mkInt [0] false)) as (t' & Ht & Hw & _); [apply canonical_wf, canonical_zero|].
    rewrite Et in Ht. injection Ht as <-.
    assert (Hl : length (repeat 0 (Z.to_nat (Z.quot p BIN_WIDTH)) ++ bins t) = 1%nat) by (injection H1 as -> _; reflexivity).
    rewrite app_length, repeat_length in Hl. pose proof (size_pos t Hw). unfold size in H0.
    unfold BIN_WIDTH in *. ldiv.
  - intros Hc. unfold canonical. splits; auto. intros Hn. rewrite H3. rewrite H4 in Hn.
    apply canonical_neg_iff in Hn; auto. pose proof (Z.pow_pos_nonneg 10 p). nia.
Qed.
Theorem C20_scale_down_partial : forall x n, canonical x -> 0 < n <= INT32_MAX ->
  (scale_down_safe (Z.abs (val x)) n ->
     exists r, times_power_ten x (- n) = Ok r /\ canonical r /\ val r = Z.quot (val x) (10 ^ n)) /\
  ((exists i, 0 <= i < n mod 9 /\ ~ div_safe (Z.abs (val x) / 10 ^ (9 * (n / 9) + i)) 10) ->
     times_power_ten x (- n) = Abort).
Proof. exact tpt_neg. Qed.
Theorem C20_scale_down_by_bins : forall x n, canonical x -> 0 < n <= INT32_MAX -> n mod 9 = 0 \/ Z.abs (val x) < 10 ^ 18 ->
  exists r, times_power_ten x (- n) = Ok r /\ canonical r /\ val r = Z.quot (val x) (10 ^ n).
Proof.
  intros x n Hx Hn Hc. apply tpt_neg; auto. intros j Hj. destruct Hc as [Hc|Hc]; [lia|].
  apply div_safe_small.
  apply Z.div_lt_upper_bound; [apply Z.pow_pos_nonneg; ldiv|].
  assert (0 < 10 ^ (9 * (n / 9) + j)) by (apply Z.pow_pos_nonneg; ldiv). nia.
Qed.
Theorem C20_scale_refuted : exists x, canonical x /\ val x = 10 ^ 18 /\ times_power_ten x (-1) = Abort.
Proof. exists ten18. splits; [ex|reflexivity|vm_compute; reflexivity]. Qed.
Example C20_ex : times_power_ten (i (-12345)) 10 = Ok (mkInt [0; 123450] true) /\
  times_power_ten (mkInt [1; 234567890; 1] true) (-10) = Ok (mkInt [123456789] true) /\
  times_power_ten (i (-12345)) (-9) = Ok (i 0).
Proof. vm_compute. auto. Qed.
Print Assumptions C20_scale_up_partial.
Print Assumptions C20_scale_down_partial.
Print Assumptions C20_scale_down_by_bins.
Print Assumptions C20_scale_refuted.

(** ** C21, C22 : equals_int32 *)
Theorem C21_equals_refuted : exists x v, canonical x /\ INT32_MIN < v <= INT32_MAX /\ equals_int32 x v = Ok true /\ val x <> v.
Proof. exists ten9, 1. splits; [ex|reflexivity|discriminate|reflexivity|discriminate]. Qed.
Theorem C21_equals_refuted_neg : exists x v, canonical x /\ INT32_MIN < v <= INT32_MAX /\ equals_int32 x v = Ok false /\ val x = v.
Proof. exists ten9, 1000000000. splits; [ex|reflexivity|discriminate|reflexivity|reflexivity]. Qed.
Theorem C22_equals_exact : forall x v, canonical x -> INT32_MIN < v <= INT32_MAX ->
  equals_int32 x v = Ok ((val x =? v * 10 ^ (9 * (Z.of_nat (length (bins x)) - 1))) && (Z.abs v <? 10 ^ 9)).
Proof.
  intros x v Hx Hv. rewrite equals_int32_gen by auto. f_equal.
  assert (Hp : pw (size x - 1) = 10 ^ (9 * (Z.of_nat (length (bins x)) - 1))).
  { unfold pw. rewrite Z.pow_mul_r; [|lia|pose proof (size_pos x (canonical_wf _ Hx)); unfold size in *; lia].
    change (10 ^ 9) with B. f_equal. pose proof (size_pos x (canonical_wf _ Hx)); unfold size in *; lia. }
  rewrite <- Hp. pose proof (pw_pos (size x - 1)). change (10 ^ 9) with B.
  rewrite (canonical_neg_eq x Hx). pose proof (abs_val x (canonical_wf _ Hx)) as Ha. rewrite <- Ha.
  set (P := pw (size x - 1)) in *. clearbody P. clear Hp Ha. generalize (val x). intros a.
  destruct (Z.abs v <? B); [|rewrite !andb_false_r; reflexivity]. rewrite !andb_true_r.
  apply eq_true_iff_eq. rewrite !andb_true_iff, !orb_true_iff, eqb_true_iff. 
  destruct (a =? v * P) eqn:E; destruct (Z.abs a =? Z.abs v * P) eqn:E2;
    destruct (a <? 0) eqn:E3; destruct (v <? 0) eqn:E4; try (split; intros; nia).
  all: try (split; [intros [_ [H1|H1]]; try discriminate; nia|intros; try discriminate; split; auto; nia]).
Qed.
Theorem C22_equals_zero : forall x, wf x -> equals_int32 x 0 = Ok (val x =? 0).
Proof.
  intros x Hx. rewrite equals_int32_0 by auto. f_equal. rewrite val_aval. destruct (negative x); lia.
Qed.
Theorem C22_equals_single : forall x v, canonical x -> INT32_MIN < v <= INT32_MAX -> Z.abs (val x) < 10 ^ 9 ->
  equals_int32 x v = Ok (val x =? v).
Proof.
  intros x v Hx Hv Hs. rewrite C22_equals_exact by auto. f_equal.
  assert (size x = 1%nat).
  { pose proof (size_pos x (canonical_wf _ Hx)).
    assert (size x <= 1)%nat; [|lia]. apply size_le_of_aval; auto.
    rewrite <- abs_val by auto. change (pw 1) with (10 ^ 9). lia. }
  unfold size in H. rewrite H. replace (9 * (Z.of_nat 1 - 1)) with 0 by lia. rewrite Z.pow_0_r, Z.mul_1_r.
  destruct (val x =? v) eqn:E; cbn [andb]; auto. lia.
Qed.
Theorem C22_int_min_undefined : forall x, equals_int32 x INT32_MIN = UB.
Proof. intros x. reflexivity. Qed.
Example C22_ex : equals_int32 (mkInt [0; 0; 7] true) (-7) = Ok true /\ equals_int32 (mkInt [5; 0; 7] false) 7 = Ok false.
Proof. vm_compute. auto. Qed.
Print Assumptions C21_equals_refuted.
Print Assumptions C21_equals_refuted_neg.
Print Assumptions C22_equals_exact.
Print Assumptions C22_equals_zero.
Print Assumptions C22_equals_single.

(** ** C23 *)
Theorem C23_set_value : forall v, INT32_MIN < v <= INT32_MAX ->
  exists r, set_value v = Ok r /\ val r = v /\ (canonical r <-> Z.abs v < 10 ^ 9).
Proof.
  intros v Hv. rewrite set_value_ok by auto. eexists; split; [reflexivity|].
  assert (E : val (mkInt [Z.abs v] (v <? 0)) = v).
  { unfold val; cbn [negative bins bins_val]. destruct (v <? 0) eqn:E; lia. }
  split; auto. split.
  - intros ((_ & Hf) & _). inversion Hf; subst. unfold digit_ok in *. lia.
  - intros Ha. apply mk_canonical; [|apply trimmed_single|cbn; lia].
    constructor; auto. unfold digit_ok. lia.
Qed.
Example C23_ex : set_value (-2147483647) = Ok (mkInt [2147483647] true).
Proof. reflexivity. Qed.
Print Assumptions C23_set_value.

(** ** C24 *)
Theorem C24_negation : forall x, canonical x ->
  (exists r, op_neg x = Ok r /\ negate x = Ok r /\ canonical r /\ val r = - val x /\ op_neg r = Ok x) /\
  is_negative x = (val x <? 0) /\ is_odd x = Ok (Z.odd (val x)).
Proof.
  intros x Hx. splits.
  - destruct (op_neg_ok x) as (r & H1 & H2 & _ & _ & _ & _ & H3); auto. exists r. splits; auto.
    destruct (op_neg_ok r) as (r2 & H4 & H5 & _ & _ & _ & _ & H6); auto.
    rewrite H4. f_equal. apply canonical_unique_lemma; auto. lia.
  - apply canonical_neg_eq; auto.
  - apply is_odd_spec; auto.
Qed.
Theorem C24_negate_any : forall x, wf x -> exists r, op_neg x = Ok r /\ val r = - val x /\ (val r = 0 -> negative r = false).
Proof. intros x Hx. destruct (op_neg_ok x Hx) as (r & H1 & H2 & _ & _ & H3 & _). eauto. Qed.
Example C24_ex : op_neg big = Ok (mkInt [7; 0; 123456789; 42] false) /\ op_neg (i 0) = Ok (i 0) /\ is_odd big = Ok true.
Proof. vm_compute. auto. Qed.
Print Assumptions C24_negation.
Print Assumptions C24_negate_any.

(** ** C26 : false of the code *)
Theorem C26_mul_assign_refuted : exists x y r, canonical x /\ canonical y /\
  mul_assign x (Some y) = Ok r /\ ~ canonical r /\ r = mkInt [0] true.
Proof.
  exists (i 0), (i (-5)), (mkInt [0] true). splits; [ex|ex|reflexivity| |reflexivity].
  intros (_ & _ & H). apply H; reflexivity.
Qed.
Theorem C26_mul_assign_refuted_bins : exists x y r, canonical x /\ canonical y /\
  mul_assign x (Some y) = Ok r /\ ~ canonical r /\ r = mkInt [0; 0] false /\ sub_assign r (Some (i 1)) = Abort.
Proof.
  exists (i 0), ten9, (mkInt [0; 0] false). splits; [ex|ex|reflexivity| |reflexivity|reflexivity].
  intros (_ & (_ & H) & _). apply H; cbn; auto.
Qed.
(** Missing from the full statement: canonical results when the product is 0. *)
Theorem C26_mul_assign_partial : forall x (o : option Int), canonical x -> (forall y, o = Some y -> canonical y) ->
  let y := rd x o in
  exists r, mul_assign x o = Ok r /\ wf r /\ val r = val x * val y /\
    (canonical r <-> (val x * val y <> 0 \/ (0 <= val x /\ 0 <= val y < 10 ^ 9))).
Proof.
  intros x o Hx Ho y.
  assert (Hy : canonical y) by (unfold y; destruct o; cbn; auto).
  destruct (mul_assign_ok x o) as (r & H1 & H2 & H3 & H4 & H5 & H6); auto.
  fold y in H3, H4, H5, H6.
  exists r. splits; auto.
  assert (Hax : aval x = 0 <-> val x = 0) by (rewrite val_aval; destruct (negative x); lia).
  assert (Hsy : (0 <= val y < 10 ^ 9) -> size y = 1%nat).
  { intros Hb. pose proof (size_pos y (canonical_wf _ Hy)).
    assert (size y <= 1)%nat; [|lia]. apply size_le_of_aval; auto.
    rewrite <- abs_val by auto. change (pw 1) with (10 ^ 9). lia. }
  rewrite (canonical_neg_eq x Hx), (canonical_neg_eq y Hy) in H4.
  split.
  - intros Hc. destruct (Z.eq_dec (val x * val y) 0) as [E|E]; auto. right.
    rewrite canonical_neg_eq in H4 by auto. rewrite H3, E in H4. cbn in H4.
    destruct (Z.eq_dec (val x) 0) as [E0|E0].
    + split; [lia|]. split; [destruct (val y <? 0) eqn:En; destruct (val x <? 0) eqn:En2; cbn in H4; try lia|].
      rewrite H6 in * by (apply Hax; auto).
      assert (r = mkInt [0] false) as -> by (apply canonical_unique_lemma; auto; [apply canonical_zero|rewrite H3, E; reflexivity]).
      specialize (H6 (proj2 Hax E0)). cbn in H6.
      assert (length [0] = length (repeat 0 (size y))) by congruence. rewrite repeat_length in H. cbn in H.
      pose proof (aval_lt_pw y (canonical_wf _ Hy)). rewrite <- H in H0. rewrite <- abs_val in H0 by auto. change (pw 1) with (10 ^ 9) in H0. lia.
    + assert (val y = 0) by nia. split; [|lia].
      destruct (val x <? 0) eqn:En; destruct (val y <? 0) eqn:En2; cbn in H4; lia.
  - intros Hc. unfold canonical. splits; auto.
    + apply H5; auto. destruct Hc as [Hc|Hc]; [left; rewrite Hax; nia|right; apply Hsy; tauto].
    + rewrite H4, H3. intros Hs. destruct Hc as [Hc|Hc]; auto.
      destruct (val x <? 0) eqn:En; destruct (val y <? 0) eqn:En2; cbn in Hs; try discriminate; nia.
Qed.
Example C26_ex : mul_assign big (Some (i (-2))) = Ok (mkInt [14; 0; 246913578; 84] false).
Proof. vm_compute. reflexivity. Qed.
Print Assumptions C26_mul_assign_refuted.
Print Assumptions C26_mul_assign_refuted_bins.
Print Assumptions C26_mul_assign_partial.

(** ** C27 *)
Theorem C27_defined : forall o x y, canonical x -> canonical y ->
  defined (binary o x y) /\ defined (assign o x (Some y)) /\ defined (assign o x None) /\
  (forall e, binary o x y = Throw e -> e = DivideByZero) /\
  (forall r, binary o x y = Ok r -> canonical r).
Proof.
  intros o x y Hx Hy.
  assert (H : forall o x y, canonical x -> canonical y ->
     (exists r, binary o x y = Ok r /\ canonical r) \/ binary o x y = Abort \/ binary o x y = Throw DivideByZero).
  { clear. intros o x y Hx Hy. destruct o; cbn [binary].
    - left. destruct (op_add_ok x y) as (r & ? & ? & _); eauto.
    - left. destruct (op_sub_ok x y) as (r & ? & ? & _); eauto.
    - left. destruct (op_mul_ok x y) as (r & ? & ? & _); eauto.
    - destruct (op_div_cases x y Hx Hy) as [[E H2]|[(_ & _ & H2)|(_ & Hs & r2 & H2 & Hc & Hv)]]; eauto.
    - destruct (op_mod_cases x y Hx Hy) as [[E H2]|[(_ & _ & H2)|(_ & Hs & r2 & H2 & Hc & Hv)]]; eauto.
    - destruct (op_pow_defined x y) as [H|(r & H & Hc)]; auto using canonical_zero_sign; eauto. }
  assert (HA : forall o x other, canonical x -> (forall y, other = Some y -> canonical y) -> defined (assign o x other)).
  { intros o' x' other Hx' Ho. pose proof (C11_assign_agrees o' x' other Hx' Ho) as Hs.
    split; intros E; rewrite E in Hs; exact Hs. }
  splits.
  - destruct (H o x y Hx Hy) as [(r & E & _)|[E|E]]; rewrite E; split; discriminate.
  - apply HA; auto. intros ? [= <-]; auto.
  - apply HA; auto. discriminate.
  - intros e He. destruct (H o x y Hx Hy) as [(r & E & _)|[E|E]]; congruence.
  - intros r He. destruct (H o x y Hx Hy) as [(r' & E & ?)|[E|E]]; congruence.
Qed.
Example C27_ex : canonical big /\ canonical ten18 /\ (exists r, binary Div big (i 3) = Ok r) /\ binary Div ten18 ten9 = Abort.
Proof. splits; try ex; [eexists|]; vm_compute; reflexivity. Qed.
Print Assumptions C27_defined.

(** ** C28 : ring laws, as equality of the returned objects *)
Theorem C28_ring_laws : forall x y z, canonical x -> canonical y -> canonical z ->
  (exists s, op_add x y = Ok s /\ op_add y x = Ok s) /\
  (exists p, op_mul x y = Ok p /\ op_mul y x = Ok p) /\
  (exists a b s, op_add x y = Ok a /\ op_add y z = Ok b /\ op_add a z = Ok s /\ op_add x b = Ok s) /\
  (exists a b p, op_mul x y = Ok a /\ op_mul y z = Ok b /\ op_mul a z = Ok p /\ op_mul x b = Ok p) /\
  (exists s a b d, op_add y z = Ok s /\ op_mul x y = Ok a /\ op_mul x z = Ok b /\ op_mul x s = Ok d /\ op_add a b = Ok d) /\
  op_add x (mkInt [0] false) = Ok x /\ op_mul x (mkInt [1] false) = Ok x /\
  op_sub x x = Ok (mkInt [0] false) /\ op_mul x (mkInt [0] false) = Ok (mkInt [0] false) /\
  (exists n, op_neg y = Ok n /\ op_sub x y = op_add x n).
Proof.
  intros x y z Hx Hy Hz.
  pose proof canonical_zero as H0. pose proof one_canonical as H1.
  assert (EA : forall a b c, canonical a -> canonical b -> canonical c -> val c = val a + val b -> op_add a b = Ok c).
  { intros a b c Ha Hb Hc Hv. destruct (op_add_ok a b) as (r & E & Hr & Hrv); auto.
    rewrite E. f_equal. apply canonical_unique_lemma; auto. lia. }
  assert (EM : forall a b c, canonical a -> canonical b -> canonical c -> val c = val a * val b -> op_mul a b = Ok c).
  { intros a b c Ha Hb Hc Hv. destruct (op_mul_ok a b) as (r & E & Hr & Hrv); auto.
    rewrite E. f_equal. apply canonical_unique_lemma; auto. lia. }
  assert (ES : forall a b c, canonical a -> canonical b -> canonical c -> val c = val a - val b -> op_sub a b = Ok c).
  { intros a b c Ha Hb Hc Hv. destruct (op_sub_ok a b) as (r & E & Hr & Hrv); auto.
    rewrite E. f_equal. apply canonical_unique_lemma; auto. lia. }
  destruct (canonical_exists (val x + val y)) as (sxy & ? & Esxy).
  destruct (canonical_exists (val y + val z)) as (syz & ? & Esyz).
  destruct (canonical_exists (val x + val y + val z)) as (sxyz & ? & Esxyz).
  destruct (canonical_exists (val x * val y)) as (pxy & ? & Epxy).
  destruct (canonical_exists (val y * val z)) as (pyz & ? & Epyz).
  destruct (canonical_exists (val x * val z)) as (pxz & ? & Epxz).
  destruct (canonical_exists (val x * val y * val z)) as (pxyz & ? & Epxyz).
  destruct (canonical_exists (val x * (val y + val z))) as (d & ? & Ed).
  destruct (canonical_exists (val x - val y)) as (m & ? & Em).
  assert (E0 : val (mkInt [0] false) = 0) by reflexivity.
  assert (E1 : val (mkInt [1] false) = 1) by reflexivity.
  destruct (op_neg_ok y) as (n & Hn1 & Hn2 & _ & _ & _ & _ & Hn3); auto.
  splits.
  - exists sxy. split; apply EA; auto; lia.
  - exists pxy. split; apply EM; auto; lia.
  - exists sxy, syz, sxyz. splits; apply EA; auto; lia.
  - exists pxy, pyz, pxyz. splits; apply EM; auto; rewrite ?Epxyz, ?Epxy, ?Epyz; ring.
  - exists syz, pxy, pxz, d. splits; [apply EA|apply EM|apply EM|apply EM|apply EA]; auto; rewrite ?Ed, ?Esyz, ?Epxy, ?Epxz; ring.
  - apply EA; auto; lia.
  - apply EM; auto; lia.
  - apply ES; auto; lia.
  - apply EM; auto; lia.
  - exists n. split; auto. rewrite (ES x y m), (EA x n m); auto; lia.
Qed.
Example C28_ex : op_mul big ten18 = op_mul ten18 big /\ op_add big ten18 = op_add ten18 big.
Proof. vm_compute. auto. Qed.
Print Assumptions C28_ring_laws.

(** ** C29 *)
Theorem C29_multiply_by_int : forall x y, wf x -> 0 <= y <= INT32_MAX ->
  exists r, multiply_by_int x y = Ok r /\ canonical r /\ val r = Z.abs (val x) * y.
Proof.
  intros x y Hx Hy. destruct (multiply_by_int_ok x y Hx Hy) as (r & H1 & H2 & _ & _ & H3).
  exists r. rewrite abs_val; auto.
Qed.
Theorem C29_divide_by_int : forall x y n, wf x ->
  (0 < y <= INT32_MAX -> exists r, divide_by_int x y n = Ok r /\ wf r /\ Z.abs (val r) = Z.abs (val x) / y) /\
  (divide_by_int x 0 n = Throw DivideByZero).
Proof.
  intros x y n Hx. split; [|reflexivity]. intros Hy.
  destruct (divide_by_int_ok x y n Hx Hy) as (r & H1 & H2 & _ & _ & H3).
  exists r. splits; auto. rewrite !abs_val; auto.
Qed.
Lemma qr_abort y x r0 : wf x -> trimmed (bins x) -> wf y -> nonneg y -> nonneg x -> aval y < aval x \/ B * aval x <= aval y ->
  quotient_and_remainder y x r0 = Abort.
Proof.
  intros Hx Htx Hy Hny Hnx Hc. unfold quotient_and_remainder, is_negative. rewrite Hny, Hnx. cbn [negb assert_ bind].
  rewrite op_le_spec, bind_ok by auto. rewrite !val_nonneg_aval by auto.
  destruct (aval x <=? aval y) eqn:E; [|reflexivity].
  change (Int_of_int64 BIN_LIMIT 0) with (Ok ten9). rewrite bind_ok.
  destruct (op_mul_gen ten9 x) as (p & Hp & Hpw & Hpv & _); auto; [apply canonical_wf, ten9_c|].
  rewrite Hp, bind_ok, op_lt_spec, bind_ok by auto.
  rewrite Hpv. change (val ten9) with B. rewrite !val_nonneg_aval by auto.
  replace (aval y <? B * aval x) with false by lia. reflexivity.
Qed.
Theorem C29_quotient_and_remainder : forall y x r0, canonical x -> canonical y -> 0 < val x -> 0 <= val y ->
  (val x <= val y < 10 ^ 9 * val x ->
     exists r, quotient_and_remainder y x r0 = Ok (val y / val x, r) /\ canonical r /\ val r = val y mod val x) /\
  (~ (val x <= val y < 10 ^ 9 * val x) -> quotient_and_remainder y x r0 = Abort).
Proof.
  intros y x r0 Hx Hy Hx0 Hy0.
  assert (Hnx : nonneg x) by (unfold nonneg; rewrite canonical_neg_eq; auto; lia).
  assert (Hny : nonneg y) by (unfold nonneg; rewrite canonical_neg_eq; auto; lia).
  rewrite (val_nonneg_aval x Hnx), (val_nonneg_aval y Hny) in *. change (10 ^ 9) with B. split; intros H.
  - destruct (quotient_and_remainder_ok y x r0) as (r & H1 & H2 & H3 & H4); auto; try lia.
    exists r. splits; auto. rewrite val_nonneg_aval; auto.
  - apply qr_abort; auto. lia.
Qed.
Example C29_ex : quotient_and_remainder ten18 (mkInt [1; 7] false) Int_default = Ok (142857142, mkInt [857142858; 5] false) /\
  divide_by_int (mkInt [1; 7] true) 3 false = Ok (mkInt [333333333; 2] false).
Proof. vm_compute. auto. Qed.
Print Assumptions C29_multiply_by_int.
Print Assumptions C29_divide_by_int.
Print Assumptions C29_quotient_and_remainder.
