(** Modulus, single-bin division, exponentiation, scaling by powers of ten. *)
From Verif Require Import Base IntModel IntSpec IntBasics IntAddSub IntMul IntDiv.
From Coq Require Import ZifyBool.

(** every integer has a canonical representation *)
Lemma canonical_exists z : exists x, canonical x /\ val x = z.
Proof.
  assert (G : forall n, 0 <= n -> exists l, Forall digit_ok l /\ trimmed l /\ bins_val l = n).
  { apply (Zlt_0_ind (fun n => exists l, Forall digit_ok l /\ trimmed l /\ bins_val l = n)).
    intros n IH Hn. destruct (Z_lt_le_dec n B).
    - exists [n]. splits; [constructor; [unfold digit_ok; lia|constructor]|apply trimmed_single|cbn; lia].
    - destruct (IH (n / B)) as [l' [D [T V]]]; [ldiv|].
      exists (n mod B :: l'). splits.
      + constructor; [unfold digit_ok; apply Z.mod_pos_bound; lia|assumption].
      + apply trimmed_cons; auto. rewrite V. ldiv.
      + cbn [bins_val]. rewrite V. ldiv. }
  destruct (G (Z.abs z) ltac:(lia)) as [l [D [T V]]].
  exists (mkInt l (z <? 0)). split.
  - apply mk_canonical; auto. lia.
  - unfold val. cbn [bins negative]. rewrite V. destruct (Z.ltb_spec z 0); lia.
Qed.

Lemma div_safe_dec a b : 0 <= a -> div_safe a b \/ ~ div_safe a b.
Proof.
  intros Ha. destruct (canonical_exists a) as [x [C V]].
  assert (aval x = a) by (rewrite <- abs_val, V by auto; lia).
  rewrite <- H. apply div_safe_dec_x; auto.
Qed.

(** modulo *)
Lemma op_mod_ok x y : wf x -> trimmed (bins x) -> wf y -> trimmed (bins y) -> val y <> 0 ->
  div_safe (Z.abs (val x)) (Z.abs (val y)) ->
  exists r, op_mod x y = Ok r /\ canonical r /\ val r = val x mod val y.
Proof.
  intros Hx Tx Hy Ty Nz S. unfold op_mod, modulo.
  assert (G : forall z, wf z -> trimmed (bins z) -> exists a, (if negative z then negate z else Ok z) = Ok a /\ wf a /\ trimmed (bins a) /\ nonneg a /\ val a = Z.abs (val z)).
  { intros z Hz Tz. pose proof (aval_nonneg z Hz). destruct (negative z) eqn:N.
    - destruct (negate_nonneg z Hz N) as [r [E [W [N' [V Bb]]]]]. exists r. splits; auto; [congruence|].
      rewrite V, val_aval, N. lia.
    - exists z. splits; auto. rewrite val_aval, N. lia. }
  destruct (G x Hx Tx) as [a [Ea [Wa [Ta [Na Va]]]]]. destruct (G y Hy Ty) as [b [Eb [Wb [Tb [Nb Vb]]]]].
  rewrite Ea, Eb. cbn [bind].
  destruct (divide_safe a b Wa Ta Wb) as [q [Eq [Cq Vq]]]; [lia|rewrite Va, Vb, !Z.abs_involutive; exact S|].
  unfold op_div. rewrite Eq. cbn [bind].
  destruct (op_mul_ok q b ltac:(auto) Wb ltac:(auto) Tb) as [qb [Em [Cm Vm]]]. rewrite Em. cbn [bind].
  destruct (op_sub_ok a qb Wa ltac:(auto) Ta ltac:(auto)) as [r [Es [Cs Vs]]]. rewrite Es. cbn [bind].
  assert (Vr : val r = Z.abs (val x) mod Z.abs (val y)).
  { rewrite Vs, Vm, Vq, Va, Vb, Z.quot_div_nonneg by lia. rewrite Z.mod_eq by lia. lia. }
  clear Vs. pose proof (Z.mod_pos_bound (Z.abs (val x)) (Z.abs (val y)) ltac:(lia)) as M.
  rewrite equals_int32_0 by auto. cbn [bind].
  pose proof (abs_val r ltac:(auto)) as Ar.
  assert (Sx : negative x = false /\ 0 <= val x \/ negative x = true /\ val x <= 0).
  { pose proof (aval_nonneg x Hx). rewrite val_aval. destruct (negative x); [right|left]; split; lia. }
  assert (Sy : negative y = false /\ 0 <= val y \/ negative y = true /\ val y <= 0).
  { pose proof (aval_nonneg y Hy). rewrite val_aval. destruct (negative y); [right|left]; split; lia. }
  set (m := Z.abs (val x) mod Z.abs (val y)) in *.
  assert (Hm : Z.abs (val x) = Z.abs (val y) * (Z.abs (val x) / Z.abs (val y)) + m) by (apply Z.div_mod; lia).
  set (d := Z.abs (val x) / Z.abs (val y)) in *. clearbody m d.
  destruct (Z.eqb_spec (aval r) 0).
  - exists r. splits; auto. assert (m = 0) by lia. rewrite Vr.
    destruct Sx as [[_ Sx]|[_ Sx]], Sy as [[_ Sy]|[_ Sy]].
    + apply (Z.mod_unique_pos _ _ d); nia.
    + apply (Z.mod_unique_neg _ _ (-d)); nia.
    + apply (Z.mod_unique_pos _ _ (-d)); nia.
    + apply (Z.mod_unique_neg _ _ d); nia.
  - assert (0 < m) by lia.
    destruct Sx as [[Nx Sx]|[Nx Sx]], Sy as [[Ny Sy]|[Ny Sy]]; rewrite Nx, Ny; cbn [andb negb].
    + exists r. splits; auto. rewrite Vr. apply (Z.mod_unique_pos _ _ d); nia.
    + destruct (addsub_assign_ok false r (Some y) ltac:(auto) ltac:(auto)) as [r' [E' [C' V']]].
      { intros ? [= <-]; auto. }
      exists r'. splits; auto. rewrite V'. cbn [rd]. apply (Z.mod_unique_neg _ _ (-d - 1)); nia.
    + destruct (op_sub_ok y r Hy ltac:(auto) Ty ltac:(auto)) as [r' [E' [C' V']]].
      exists r'. splits; auto. rewrite V'. apply (Z.mod_unique_pos _ _ (-d - 1)); nia.
    + destruct (negate_ok r ltac:(auto)) as [r' [E' [V' [B' [W' [Z' [N' C']]]]]]].
      exists r'. splits; auto. rewrite V'. apply (Z.mod_unique_neg _ _ d); nia.
Qed.

Lemma mod_operand z : wf z -> trimmed (bins z) ->
  exists a, (if negative z then negate z else Ok z) = Ok a /\ wf a /\ trimmed (bins a) /\ aval a = aval z.
Proof.
  intros Hz Tz. destruct (negative z) eqn:N.
  - destruct (negate_nonneg z Hz N) as [r [E [W [N' [V Bb]]]]]. exists r. splits; auto; [congruence|apply aval_bins; assumption].
  - exists z. splits; auto.
Qed.

Lemma op_mod_zero x y : wf x -> trimmed (bins x) -> wf y -> trimmed (bins y) -> val y = 0 -> op_mod x y = Throw DivideByZero.
Proof.
  intros Hx Tx Hy Ty Z0. unfold op_mod, modulo.
  destruct (mod_operand x Hx Tx) as [a [Ea [Wa [Ta Va]]]]. destruct (mod_operand y Hy Ty) as [b [Eb [Wb [Tb Vb]]]].
  rewrite Ea, Eb. cbn [bind]. unfold op_div. rewrite divide_by_zero; auto.
  pose proof (abs_val b Wb). pose proof (abs_val y Hy). lia.
Qed.

Lemma op_mod_unsafe x y : wf x -> trimmed (bins x) -> wf y -> trimmed (bins y) -> val y <> 0 ->
  ~ div_safe (Z.abs (val x)) (Z.abs (val y)) -> op_mod x y = Abort.
Proof.
  intros Hx Tx Hy Ty Nz S. unfold op_mod, modulo.
  destruct (mod_operand x Hx Tx) as [a [Ea [Wa [Ta Va]]]]. destruct (mod_operand y Hy Ty) as [b [Eb [Wb [Tb Vb]]]].
  rewrite Ea, Eb. cbn [bind]. unfold op_div. rewrite divide_unsafe; auto.
  - pose proof (abs_val b Wb). pose proof (abs_val y Hy). lia.
  - rewrite !abs_val in * by assumption. rewrite Va, Vb. exact S.
Qed.

(** divide_by_int *)
Lemma dbi_loop_spec xs : forall y r acc, Forall digit_ok xs -> 0 < y <= INT32_MAX -> 0 <= r < y ->
  exists qs, dbi_loop xs y r acc = Ok (qs ++ acc) /\ length qs = length xs /\ Forall digit_ok qs /\
    bins_val qs = (r * pw (length xs) + bins_val (rev xs)) / y.
Proof.
  induction xs as [|b xs IH]; intros y r acc Hd Hy Hr; cbn [dbi_loop].
  - exists []. splits; auto. cbn [bins_val rev length]. rewrite pw_0, Z.div_small by lia. reflexivity.
  - inversion Hd as [|? ? Hb Hd']; subst. unfold digit_ok in Hb. unfold INT32_MAX in Hy. unfold BIN_LIMIT.
    assert (0 <= r * B + b < y * B) by nia.
    rewrite i64_ok by (unfold INT64_MIN, INT64_MAX; lia). cbn [bind].
    rewrite i64_ok by (unfold INT64_MIN, INT64_MAX; lia). cbn [bind].
    rewrite Z.quot_div_nonneg, Z.rem_mod_nonneg by lia.
    assert (0 <= (r * B + b) / y < B) by (split; [apply Z.div_pos|apply Z.div_lt_upper_bound]; lia).
    rewrite i64_ok by (unfold INT64_MIN, INT64_MAX; lia). cbn [bind].
    rewrite to_int32_id by (unfold INT32_MIN, INT32_MAX; lia).
    pose proof (Z.mod_pos_bound (r * B + b) y ltac:(lia)).
    destruct (IH y ((r * B + b) mod y) ((r * B + b) / y :: acc) Hd' Hy ltac:(lia)) as [qs [E [L [D V]]]].
    exists (qs ++ [(r * B + b) / y]). splits.
    + rewrite E, <- app_assoc. reflexivity.
    + rewrite app_length. cbn. lia.
    + apply Forall_app; split; [assumption|]. constructor; [unfold digit_ok; lia|constructor].
    + rewrite bins_val_app, L, V. cbn [rev bins_val length]. rewrite bins_val_app, rev_length. cbn [bins_val].
      rewrite pw_S. pose proof (pw_pos (length xs)) as PP.
      replace (r * (B * pw (length xs)) + (bins_val (rev xs) + pw (length xs) * (b + B * 0)))
        with (r * (B * pw (length xs)) + (bins_val (rev xs) + pw (length xs) * b)) by lia.
      rewrite (div_step_arith r b y _ (bins_val (rev xs))) by lia.
      replace (B * r + b) with (r * B + b) by lia. lia.
Qed.

Lemma divide_by_int_ok x y n : wf x -> 0 < y <= INT32_MAX ->
  exists r, divide_by_int x y n = Ok r /\ wf r /\ negative r = n /\ size r = size x /\ aval r = aval x / y.
Proof.
  intros [Hn Hd] Hy. unfold divide_by_int. replace (y =? 0) with false by lia.
  destruct (dbi_loop_spec (rev (bins x)) y 0 [] ltac:(apply Forall_rev; assumption) Hy ltac:(lia)) as [qs [E [L [D V]]]].
  rewrite E, app_nil_r. cbn [bind]. rewrite rev_length in *. rewrite rev_involutive in V.
  assert (qs <> []) by (destruct qs; [destruct (bins x); cbn in *; congruence|discriminate]).
  destruct qs as [|q qs]; [congruence|]. eexists; split; [reflexivity|]. splits; auto.
  - split; cbn [bins]; assumption.
Qed.

(** equals_int32 exactly *)
Lemma equals_int32_gen x v : wf x -> INT32_MIN < v <= INT32_MAX ->
  equals_int32 x v = Ok ((aval x =? Z.abs v * pw (size x - 1)) && (Z.abs v <? B) && (Bool.eqb (negative x) (v <? 0) || (v =? 0))).
Proof.
  intros [Hn Hd] Hv. unfold equals_int32. rewrite abs32_ok by assumption. cbn [bind].
  destruct (bins x) as [|b0 l0] eqn:E; [congruence|]. rewrite <- E in *.
  rewrite forallb_zero by (apply Forall_removelast; assumption).
  unfold aval, size. rewrite (bins_val_last (bins x)) by assumption.
  replace (length (bins x) - 1)%nat with (length (removelast (bins x))) by (rewrite (length_snoc (bins x)) by assumption; lia).
  clear b0 l0 E.
  pose proof (bins_val_bound _ (Forall_removelast _ _ Hd)) as BB.
  pose proof (pw_pos (length (removelast (bins x)))).
  pose proof (Forall_last _ Hn Hd) as Hl. unfold digit_ok in Hl.
  set (u := bins_val (removelast (bins x))) in *. set (p := pw _) in *.
  set (t := last (bins x) 0) in *.
  replace (Z.abs v =? 0) with (v =? 0) by lia.
  destruct (Z.eqb_spec u 0) as [->|Hu].
  - destruct (Z.eqb_spec t (Z.abs v)) as [Et|Ht].
    + replace (0 + p * t =? Z.abs v * p) with true by (rewrite <- Et; lia). replace (Z.abs v <? B) with true by lia.
      cbn [andb]. destruct (Bool.eqb _ _); cbn [orb]; [reflexivity|]. destruct (v =? 0); reflexivity.
    + replace (0 + p * t =? Z.abs v * p) with false by nia. reflexivity.
  - destruct (Z.ltb_spec (Z.abs v) B).
    + assert (u + p * t <> Z.abs v * p).
      { destruct (Z_lt_le_dec t (Z.abs v)).
        - assert (p * (t + 1) <= p * Z.abs v) by (apply Z.mul_le_mono_nonneg_l; lia). lia.
        - assert (p * Z.abs v <= p * t) by (apply Z.mul_le_mono_nonneg_l; lia). lia. }
      replace (u + p * t =? Z.abs v * p) with false by lia. reflexivity.
    + rewrite andb_false_r. reflexivity.
Qed.

(** set_value *)
Lemma set_value_ok v : INT32_MIN < v <= INT32_MAX ->
  set_value v = Ok (mkInt [Z.abs v] (v <? 0)).
Proof. intros H. unfold set_value. rewrite abs32_ok by assumption. reflexivity. Qed.

Lemma one_canonical : canonical (mkInt [1] false).
Proof. apply canonicalb_spec. reflexivity. Qed.

(** parity *)
Lemma is_odd_spec x : wf x -> is_odd x = Ok (Z.odd (val x)).
Proof.
  intros [Hn Hd]. unfold is_odd. destruct (bins x) as [|b l] eqn:E; [congruence|].
  inversion Hd as [|? ? Hb Hd']; subst. unfold digit_ok in Hb. f_equal.
  assert (O : Z.odd (val x) = Z.odd b).
  { unfold val. rewrite E. cbn [bins_val].
    replace (b + B * bins_val l) with (b + 2 * (500000000 * bins_val l)) by lia.
    destruct (negative x); rewrite ?Z.odd_opp, Z.odd_add_mul_2; reflexivity. }
  rewrite O. rewrite Z.rem_mod_nonneg, Zmod_odd by lia. destruct (Z.odd b); reflexivity.
Qed.

(** exponentiate *)
Lemma exp_measure_even v : 0 < v -> Z.odd v = false -> 2 * Z.log2 (v / 2) + (if Z.odd (v / 2) then 1 else 0) + 1 < 2 * Z.log2 v + 1.
Proof.
  intros Hv Ho. assert (v = 2 * (v / 2)).
  { rewrite (Z.div_mod v 2) at 1 by lia. rewrite Zmod_odd, Ho. lia. }
  assert (0 < v / 2) by lia. assert (Z.log2 v = Z.succ (Z.log2 (v / 2))) by (rewrite H at 1; apply Z.log2_double; lia). destruct (Z.odd (v / 2)); lia.
Qed.
Lemma exp_measure_odd v : 1 < v -> Z.odd v = true -> 2 * Z.log2 (v - 1) + 1 < 2 * Z.log2 v + 1 + 1 /\ Z.odd (v - 1) = false.
Proof.
  intros Hv Ho. rewrite Z.odd_sub, Ho. split; [|reflexivity].
  pose proof (Z.log2_le_mono (v - 1) v ltac:(lia)). lia.
Qed.

Lemma half_pow j v : 0 <= j -> v / 2 / 2 ^ j = v / 2 ^ (j + 1).
Proof. intros H. rewrite Z.div_div by (try lia; apply Z.pow_pos_nonneg; lia). f_equal. rewrite Z.pow_add_r by lia. lia. Qed.
Lemma dec_pow j v : 1 <= j -> Z.odd v = true -> (v - 1) / 2 ^ j = v / 2 ^ j.
Proof.
  intros Hj Ho. replace j with ((j - 1) + 1) by lia. rewrite <- !half_pow by lia. f_equal.
  pose proof (Zmod_odd v) as M. rewrite Ho in M. Z.to_euclidean_division_equations. lia.
Qed.

Lemma radix_even k : 1 <= k -> Z.odd (B ^ k) = false.
Proof. intros H. rewrite Z.odd_pow by lia. reflexivity. Qed.

Lemma no_radix_half v : no_radix_power v -> no_radix_power (v / 2).
Proof. intros H j k Hj Hk. rewrite half_pow by lia. apply H; lia. Qed.
Lemma no_radix_dec v : Z.odd v = true -> no_radix_power v -> no_radix_power (v - 1).
Proof.
  intros Ho H j k Hj Hk. destruct (Z.eq_dec j 0) as [->|].
  - rewrite Z.pow_0_r, Z.div_1_r. destruct (H 0 k ltac:(lia) Hk) as [_ H2].
    rewrite Z.pow_0_r, Z.div_1_r in H2. split; [lia|]. intros E.
    assert (Z.odd (v - 1) = Z.odd (B ^ k + 1)) by congruence.
    rewrite Z.odd_sub, Ho, Z.odd_add, radix_even in H0 by lia. discriminate.
  - rewrite dec_pow by (auto; lia). apply H; assumption.
Qed.

Lemma leads_half v : leads_to_2_29 (v / 2) -> leads_to_2_29 v.
Proof. intros [t [T1 T2]]. exists (t + 1). rewrite half_pow in T2 by lia. split; [lia|assumption]. Qed.
Lemma leads_dec v : Z.odd v = true -> leads_to_2_29 (v - 1) <-> leads_to_2_29 v.
Proof. intros Ho. split; intros [t [T1 T2]]; exists t; rewrite dec_pow in * by (auto; lia); auto. Qed.

Definition is_pow2 (v : Z) : Prop := exists i, 0 <= i /\ v = 2 ^ i.

(* a power of two above the radix leads to 2^29 *)
Lemma pow2_leads v : is_pow2 v -> B <= v -> leads_to_2_29 v.
Proof.
  intros [i [Hi ->]] Hv.
  assert (30 <= i).
  { destruct (Z_lt_le_dec i 30); [|assumption].
    pose proof (Z.pow_le_mono_r 2 i 29 ltac:(lia) ltac:(lia)). lia. }
  exists (i - 29). split; [lia|]. rewrite <- Z.pow_sub_r by lia. f_equal. lia.
Qed.

Lemma pow_double x n : 0 <= n -> (x ^ n) * (x ^ n) = x ^ (2 * n).
Proof. intros H. rewrite <- Z.pow_add_r by lia. f_equal. lia. Qed.

Lemma untrimmed_size y : wf y -> trimmedb (bins y) = false -> (size y > 1)%nat /\ aval y < pw (size y - 1).
Proof.
  intros [Hn Hd] T. unfold trimmedb in T. unfold size, aval.
  destruct (Nat.leb_spec (length (bins y)) 1) as [L|L]; [discriminate|]. split; [lia|].
  destruct (Z.eqb_spec (last (bins y) 0) 0) as [E|]; [|discriminate].
  rewrite bins_val_last, E by assumption. rewrite (length_snoc (bins y)) by assumption.
  replace (S (length (removelast (bins y))) - 1)%nat with (length (removelast (bins y))) by lia.
  pose proof (bins_val_bound _ (Forall_removelast _ _ Hd)). lia.
Qed.

Lemma size_untrimmed y : wf y -> (size y > 1)%nat -> aval y < pw (size y - 1) -> trimmedb (bins y) = false.
Proof.
  intros W S V. destruct (trimmedb (bins y)) eqn:T; [|reflexivity].
  apply trimmedb_spec in T; [|apply W]. pose proof (trimmed_lower _ (proj2 W) T ltac:(unfold size in *; lia)).
  unfold aval, size in *. lia.
Qed.

Lemma div_le_self v : 0 <= v -> v / 2 <= v. Proof. intros. Z.to_euclidean_division_equations. lia. Qed.

(* the tests against 0 and 1 *)
Lemma equals_one y : wf y -> nonneg y -> no_radix_power (aval y) ->
  equals_int32 y 1 = Ok ((size y =? 1)%nat && (aval y =? 1)).
Proof.
  unfold nonneg. intros W N H. rewrite equals_int32_gen by (auto; unfold INT32_MIN, INT32_MAX; lia).
  rewrite N. change (Bool.eqb false (1 <? 0) || (1 =? 0)) with true.
  change (Z.abs 1 <? B) with true. change (Z.abs 1) with 1. rewrite !andb_true_r, Z.mul_1_l. f_equal.
  pose proof (size_pos y W).
  destruct (Nat.eqb_spec (size y) 1) as [->|Ns]; cbn [andb]; [reflexivity|].
  destruct (H 0 (Z.of_nat (size y - 1)) ltac:(lia) ltac:(lia)) as [H1 _].
  rewrite Z.pow_0_r, Z.div_1_r in H1. unfold pw. lia.
Qed.

Lemma exp_ok x : wf x -> trimmed (bins x) -> (val x = 0 -> negative x = false) ->
  forall fuel y, wf y -> nonneg y -> no_radix_power (aval y) ->
  ~ leads_to_2_29 (aval y) -> (trimmedb (bins y) = false -> ~ is_pow2 (aval y)) ->
  2 * Z.log2 (aval y) + (if Z.odd (aval y) then 1 else 0) + 1 <= Z.of_nat fuel ->
  exists r, exponentiate fuel x y = Ok r /\ canonical r /\ val r = val x ^ aval y.
Proof.
  intros Hx Tx Sx. induction fuel as [|f IH]; intros y Hy Ny HC1 HC2 HC3 Hf.
  { pose proof (Z.log2_nonneg (aval y)). destruct (Z.odd (aval y)); lia. }
  cbn [exponentiate]. rewrite equals_int32_0 by assumption. cbn [bind].
  pose proof (aval_nonneg y Hy) as Py.
  destruct (Z.eqb_spec (aval y) 0) as [E0|E0].
  { exists (mkInt [1] false). rewrite E0. splits; auto using one_canonical. }
  rewrite equals_one by assumption. cbn [bind].
  destruct (Nat.eqb_spec (size y) 1) as [S1|S1], (Z.eqb_spec (aval y) 1) as [E1|E1]; cbn [andb].
  { exists x. splits; auto; [split; [assumption|split; [assumption|]]|rewrite E1; lia].
    intros N V. specialize (Sx V). congruence. }
  all: rewrite is_odd_spec, (val_nonneg_aval y Ny) by assumption; cbn [bind].
  all: destruct (Z.odd (aval y)) eqn:Eo.
  (* v = 1 with several bins is excluded *)
  3: { exfalso. apply HC3.
       - apply size_untrimmed; auto; [pose proof (size_pos y Hy); lia|].
         pose proof (size_pos y Hy). replace (size y - 1)%nat with (S (size y - 2)) by lia.
         pose proof (pw_ge_S (size y - 2)). lia.
       - exists 0. split; [lia|]. rewrite E1. reflexivity. }
  3: { rewrite E1 in Eo. discriminate. }
  1, 3:
    destruct (Int_of_int64_ok 1 0) as [one [Eone [Vone [Cone _]]]]; [unfold INT64_MIN, INT64_MAX; lia|];
    rewrite Eone; cbn [bind]; rewrite pw_0 in Vone; replace (1 * 1) with 1 in Vone by lia;
    pose proof (op_sub_gen y one Hy ltac:(auto)) as G;
    assert (Aone : aval one = 1) by (rewrite <- abs_val, Vone by auto; reflexivity);
    replace (aval y >? aval one) with true in G by lia;
    rewrite (proj2 (trimmedb_spec (bins one) (proj1 (canonical_wf _ Cone))) ltac:(auto)), andb_false_r in G;
    destruct G as [ym [Em [Wm [Vm [Zm [_ Cm]]]]]];
    assert (C : canonical ym) by (apply Cm; rewrite Ny; pose proof (canonical_neg_eq one Cone); lia);
    rewrite Em; cbn [bind];
    rewrite (val_nonneg_aval y Ny), Vone in Vm;
    assert (Nm : nonneg ym) by (unfold nonneg; rewrite (canonical_neg_eq ym C); lia);
    rewrite (val_nonneg_aval ym Nm) in Vm;
    destruct (exp_measure_odd (aval y) ltac:(lia) Eo) as [M1 M2];
    destruct (IH ym Wm Nm) as [a [Ea [Ca Va]]];
    [ rewrite Vm; apply no_radix_dec; assumption
    | rewrite Vm; rewrite leads_dec; assumption
    | intros T; rewrite (proj2 (trimmedb_spec (bins ym) (proj1 Wm)) ltac:(auto)) in T; discriminate
    | rewrite Vm, M2; lia
    | ];
    rewrite Ea; cbn [bind];
    destruct (op_mul_ok x a Hx ltac:(auto) Tx ltac:(auto)) as [r [Er [Cr Vr]]];
    exists r; splits; auto; rewrite Vr, Va, Vm;
    replace (aval y) with (Z.succ (aval y - 1)) at 2 by lia; rewrite Z.pow_succ_r by lia; reflexivity.
  all: destruct (divide_by_int_ok y 2 false Hy ltac:(unfold INT32_MAX; lia)) as [h [Eh [Wh [Nh [Sh Vh]]]]];
    rewrite Eh; cbn [bind];
    assert (Ev : aval y = 2 * (aval y / 2)) by (rewrite (Z.div_mod (aval y) 2) at 1 by lia; rewrite Zmod_odd, Eo; lia);
    destruct (IH h Wh Nh) as [a [Ea [Ca Va]]];
    [ rewrite Vh; apply no_radix_half; assumption
    | rewrite Vh; intros L; apply HC2, leads_half, L
    | intros T [i [Hi Hp]]; rewrite Vh in Hp;
      assert (P2 : is_pow2 (aval y)) by (exists (i + 1); split; [lia|]; rewrite Z.pow_add_r by lia; lia);
      destruct (trimmedb (bins y)) eqn:Ty; [|apply (HC3 eq_refl P2)];
      apply HC2, (pow2_leads _ P2);
      apply trimmedb_spec in Ty; [|apply Hy];
      destruct (untrimmed_size h Wh T) as [U1 _]; rewrite Sh in U1;
      pose proof (trimmed_lower _ (proj2 Hy) Ty ltac:(unfold size in *; lia)) as TL;
      pose proof (pw_le 1 (length (bins y) - 1) ltac:(unfold size in *; lia)) as PL;
      change (pw 1) with B in PL; unfold aval; lia
    | rewrite Vh; pose proof (exp_measure_even (aval y) ltac:(lia) Eo); lia
    | ];
    rewrite Ea; cbn [bind];
    destruct (op_mul_ok a a ltac:(auto) ltac:(auto) ltac:(auto) ltac:(auto)) as [r [Er [Cr Vr]]];
    exists r; splits; auto; rewrite Vr, Va, Vh, pow_double by lia; f_equal; lia.
Qed.

(* exponents whose leading bits are those of 2^30 trip an assertion *)
Lemma exp_abort x : wf x -> trimmed (bins x) -> (val x = 0 -> negative x = false) ->
  forall fuel y, wf y -> nonneg y -> no_radix_power (aval y) ->
  leads_to_2_29 (aval y) \/ (trimmedb (bins y) = false /\ is_pow2 (aval y)) ->
  2 * Z.log2 (aval y) + (if Z.odd (aval y) then 1 else 0) + 1 <= Z.of_nat fuel ->
  exponentiate fuel x y = Abort.
Proof.
  intros Hx Tx Sx. induction fuel as [|f IH]; intros y Hy Ny HC1 HC2 Hf.
  { pose proof (Z.log2_nonneg (aval y)). destruct (Z.odd (aval y)); lia. }
  cbn [exponentiate]. rewrite equals_int32_0 by assumption. cbn [bind].
  pose proof (aval_nonneg y Hy) as Py. pose proof (size_pos y Hy) as Sy.
  assert (Big : leads_to_2_29 (aval y) -> 2 ^ 30 <= aval y).
  { intros [t [T1 T2]]. pose proof (Z.pow_le_mono_r 2 1 t ltac:(lia) ltac:(lia)).
    pose proof (Z.mul_div_le (aval y) (2 ^ t) ltac:(lia)). rewrite T2 in H0. change (2 ^ 30) with (2 * 2 ^ 29). nia. }
  assert (Pos : 0 < aval y).
  { destruct HC2 as [L|[_ [i [Hi ->]]]]; [specialize (Big L); lia|apply Z.pow_pos_nonneg; lia]. }
  replace (aval y =? 0) with false by lia.
  rewrite equals_one by assumption. cbn [bind].
  replace ((size y =? 1)%nat && (aval y =? 1)) with false.
  2: { symmetry. apply andb_false_iff. destruct HC2 as [L|[T _]].
       - right. specialize (Big L). lia.
       - left. destruct (untrimmed_size y Hy T). lia. }
  rewrite is_odd_spec, (val_nonneg_aval y Ny) by assumption. cbn [bind].
  destruct (Z.odd (aval y)) eqn:Eo.
  - destruct (Int_of_int64_ok 1 0) as [one [Eone [Vone [Cone _]]]]; [unfold INT64_MIN, INT64_MAX; lia|].
    rewrite Eone. cbn [bind]. rewrite pw_0 in Vone. replace (1 * 1) with 1 in Vone by lia.
    pose proof (op_sub_gen y one Hy ltac:(auto)) as G.
    assert (Aone : aval one = 1) by (rewrite <- abs_val, Vone by auto; reflexivity).
    assert (None1 : negative one = false) by (rewrite (canonical_neg_eq one Cone); lia).
    destruct (Z.eq_dec (aval y) 1) as [E1|E1].
    + rewrite E1, Aone in G. change (1 >? 1) with false in G. rewrite Ny, None1 in G. cbn [Bool.eqb andb] in G.
      destruct HC2 as [L|[T _]]; [specialize (Big L); lia|].
      rewrite T in G. cbn [negb] in G. rewrite G. reflexivity.
    + replace (aval y >? aval one) with true in G by lia.
      rewrite (proj2 (trimmedb_spec (bins one) (proj1 (canonical_wf _ Cone))) ltac:(auto)), andb_false_r in G.
      destruct G as [ym [Em [Wm [Vm [Zm [_ Cm]]]]]].
      assert (C : canonical ym) by (apply Cm; rewrite Ny; congruence).
      rewrite Em. cbn [bind].
      rewrite (val_nonneg_aval y Ny), Vone in Vm.
      assert (Nm : nonneg ym) by (unfold nonneg; rewrite (canonical_neg_eq ym C); lia).
      rewrite (val_nonneg_aval ym Nm) in Vm.
      destruct (exp_measure_odd (aval y) ltac:(lia) Eo) as [M1 M2].
      rewrite IH; auto.
      * rewrite Vm. apply no_radix_dec; assumption.
      * left. rewrite Vm. apply leads_dec; auto. destruct HC2 as [L|[_ [i [Hi Hp]]]]; [assumption|].
        destruct (Z.eq_dec i 0) as [->|]; [rewrite Z.pow_0_r in Hp; lia|].
        rewrite Hp, Z.odd_pow in Eo by lia. discriminate.
      * rewrite Vm, M2. lia.
  - destruct (divide_by_int_ok y 2 false Hy ltac:(unfold INT32_MAX; lia)) as [h [Eh [Wh [Nh [Sh Vh]]]]].
    rewrite Eh. cbn [bind].
    assert (Ev : aval y = 2 * (aval y / 2)) by (rewrite (Z.div_mod (aval y) 2) at 1 by lia; rewrite Zmod_odd, Eo; lia).
    rewrite IH; auto.
    + rewrite Vh. apply no_radix_half; assumption.
    + rewrite Vh. destruct HC2 as [L|[T [i [Hi Hp]]]].
      * destruct (L) as [t [T1 T2]]. destruct (Z.eq_dec t 1) as [->|].
        -- right. rewrite Z.pow_1_r in T2. split.
           ++ apply size_untrimmed; auto; rewrite Sh.
              ** pose proof (size_ge_of_aval y 1 Hy). change (pw 1) with B in H. lia.
              ** rewrite Vh, T2. pose proof (size_ge_of_aval y 1 Hy). change (pw 1) with B in H.
                 specialize (H ltac:(lia)). pose proof (pw_le 1 (size y - 1) ltac:(lia)).
                 change (pw 1) with B in H0. lia.
           ++ exists 29. split; [lia|]. exact T2.
        -- left. exists (t - 1). split; [lia|]. rewrite half_pow by lia. rewrite <- T2. f_equal. f_equal. lia.
      * right. split.
        -- destruct (untrimmed_size y Hy T) as [U1 U2].
           apply size_untrimmed; auto; rewrite Sh; [assumption|]. rewrite Vh. pose proof (div_le_self (aval y)). lia.
        -- destruct (Z.eq_dec i 0) as [->|].
           ++ rewrite Z.pow_0_r in Hp. rewrite Hp in Eo. discriminate.
           ++ exists (i - 1). split; [lia|]. replace i with (Z.succ (i - 1)) in Hp by lia.
              rewrite Z.pow_succ_r in Hp by lia. lia.
    + rewrite Vh. pose proof (exp_measure_even (aval y) ltac:(lia) Eo). lia.
Qed.

Lemma exp_fuel_enough y v : wf y -> 0 <= v <= B * aval y + B ->
  2 * Z.log2 v + (if Z.odd v then 1 else 0) + 1 <= Z.of_nat (exp_fuel y) - 2.
Proof.
  intros W Hv. unfold exp_fuel. pose proof (size_pos y W). pose proof (aval_lt_pw y W) as U.
  assert (v < 2 ^ (30 * Z.of_nat (size y) + 31)).
  { assert (pw (size y) <= 2 ^ (30 * Z.of_nat (size y))).
    { unfold pw. rewrite Z.pow_mul_r by lia. apply Z.pow_le_mono_l. split; [lia|]. cbv. discriminate. }
    rewrite Z.pow_add_r by lia. assert (2 ^ 31 = 2147483648) by reflexivity. nia. }
  assert (Z.log2 v < 30 * Z.of_nat (size y) + 31 \/ v <= 0).
  { destruct (Z_lt_le_dec 0 v); [left; apply Z.log2_lt_pow2; assumption|right; assumption]. }
  destruct H1 as [H1|H1].
  - destruct (Z.odd v); lia.
  - rewrite Z.log2_nonpos by assumption. destruct (Z.odd v); lia.
Qed.

Lemma op_pow_ok x y : wf x -> trimmed (bins x) -> (val x = 0 -> negative x = false) -> canonical y ->
  0 <= val y -> no_radix_power (val y) -> ~ leads_to_2_29 (val y) ->
  exists r, op_pow x y = Ok r /\ canonical r /\ val r = val x ^ val y.
Proof.
  intros Hx Tx Sx Cy Py C1 C2.
  assert (Ny : nonneg y) by (unfold nonneg; rewrite (canonical_neg_eq y Cy); lia).
  rewrite (val_nonneg_aval y Ny) in *.
  apply exp_ok; auto.
  - intros T. rewrite (proj2 (trimmedb_spec (bins y) (proj1 (canonical_wf y Cy))) ltac:(auto)) in T. discriminate.
  - pose proof (exp_fuel_enough y (aval y) ltac:(auto) ltac:(lia)). lia.
Qed.

Lemma op_pow_abort x y : wf x -> trimmed (bins x) -> (val x = 0 -> negative x = false) -> canonical y ->
  0 <= val y -> no_radix_power (val y) -> leads_to_2_29 (val y) -> op_pow x y = Abort.
Proof.
  intros Hx Tx Sx Cy Py C1 C2.
  assert (Ny : nonneg y) by (unfold nonneg; rewrite (canonical_neg_eq y Cy); lia).
  rewrite (val_nonneg_aval y Ny) in *.
  apply exp_abort; auto.
  pose proof (exp_fuel_enough y (aval y) ltac:(auto) ltac:(lia)). lia.
Qed.

Lemma small_no_radix v : 0 <= v < B -> no_radix_power v.
Proof.
  intros Hv j k Hj Hk.
  assert (0 <= v / 2 ^ j < B).
  { pose proof (Z.pow_pos_nonneg 2 j ltac:(lia) Hj). split; [apply Z.div_pos; lia|].
    apply Z.div_lt_upper_bound; [lia|]. nia. }
  pose proof (Z.pow_le_mono_r B 1 k ltac:(lia) ltac:(lia)). lia.
Qed.
Lemma small_no_leads v : 0 <= v < 2 ^ 30 -> ~ leads_to_2_29 v.
Proof.
  intros Hv [t [T1 T2]]. pose proof (Z.pow_le_mono_r 2 1 t ltac:(lia) ltac:(lia)).
  pose proof (Z.mul_div_le v (2 ^ t) ltac:(lia)). rewrite T2 in H0.
  change (2 ^ 30) with (2 * 2 ^ 29) in Hv. nia.
Qed.

(** x ^ (10^(9k)) returns x *)
Lemma op_pow_radix x y k : (1 <= k)%nat -> bins y = repeat 0 k ++ [1] -> negative y = false -> op_pow x y = Ok x.
Proof.
  intros Hk Eb En.
  assert (W : wf y).
  { split; rewrite Eb; [destruct k; discriminate|]. apply Forall_app; split; [apply Forall_repeat0|].
    constructor; [unfold digit_ok; lia|constructor]. }
  assert (V : aval y = pw k).
  { unfold aval. rewrite Eb, bins_val_app, bins_val_repeat, repeat_length. cbn [bins_val]. lia. }
  assert (Sk : size y = S k) by (unfold size; rewrite Eb, app_length, repeat_length; cbn; lia).
  unfold op_pow. destruct (exp_fuel y) as [|f] eqn:Ef; [unfold exp_fuel in Ef; lia|]. cbn [exponentiate].
  rewrite equals_int32_0 by assumption. cbn [bind]. pose proof (pw_pos k).
  replace (aval y =? 0) with false by lia.
  rewrite equals_int32_gen by (auto; unfold INT32_MIN, INT32_MAX; lia). cbn [bind].
  rewrite Sk, V, En. replace (S k - 1)%nat with k by lia.
  replace ((pw k =? Z.abs 1 * pw k) && (Z.abs 1 <? B) && (Bool.eqb false (1 <? 0) || (1 =? 0))) with true; [reflexivity|].
  change (Z.abs 1) with 1. rewrite Z.mul_1_l, Z.eqb_refl. reflexivity.
Qed.

(** negative exponents *)
Lemma op_pow_negative x y n : wf x -> trimmed (bins x) -> (val x = 0 -> negative x = false) -> canonical y ->
  0 < n < B -> val y = - n ->
  exists r, op_pow x y = Ok r /\ canonical r /\ val r = val x ^ (if Z.even n then n else n + 2).
Proof.
  intros Hx Tx Sx Cy Hn Vy.
  assert (Ny : negative y = true) by (rewrite (canonical_neg_eq y Cy); lia).
  assert (Hy : wf y) by auto.
  assert (Ay : aval y = n) by (rewrite <- abs_val by auto; lia).
  (* an even negative exponent -m, m <= B *)
  assert (Even : forall f z m, canonical z -> val z = - m -> 0 < m <= B -> Z.even m = true ->
     2 * Z.log2 (m / 2) + (if Z.odd (m / 2) then 1 else 0) + 1 <= Z.of_nat f ->
     exists r, exponentiate (S f) x z = Ok r /\ canonical r /\ val r = val x ^ m).
  { intros f z m Cz Vz Hm Em Hf. assert (Hz : wf z) by auto.
    assert (Nz : negative z = true) by (rewrite (canonical_neg_eq z Cz); lia).
    assert (Az : aval z = m) by (rewrite <- abs_val by auto; lia).
    cbn [exponentiate]. rewrite equals_int32_0 by assumption. cbn [bind].
    replace (aval z =? 0) with false by lia.
    rewrite equals_int32_gen by (auto; unfold INT32_MIN, INT32_MAX; lia). rewrite Nz.
    change (Bool.eqb true (1 <? 0) || (1 =? 0)) with false. rewrite andb_false_r. cbn [bind].
    rewrite is_odd_spec by assumption. cbn [bind].
    assert (Om : Z.odd m = false) by (rewrite <- Z.negb_even, Em; reflexivity).
    rewrite Vz, Z.odd_opp, Om.
    destruct (divide_by_int_ok z 2 false Hz ltac:(unfold INT32_MAX; lia)) as [h [Eh [Wh [Nh [Sh Vh]]]]].
    rewrite Eh. cbn [bind]. rewrite Az in Vh.
    assert (Ev : m = 2 * (m / 2)) by (rewrite (Z.div_mod m 2) at 1 by lia; rewrite Zmod_odd, Om; lia).
    destruct (exp_ok x Hx Tx Sx f h Wh Nh) as [a [Ea [Ca Va]]].
    - rewrite Vh. apply small_no_radix. lia.
    - rewrite Vh. apply small_no_leads. lia.
    - intros T. rewrite Vh. destruct (untrimmed_size h Wh T) as [U1 U2]. rewrite Sh in U1.
      pose proof (trimmed_lower _ (proj2 Hz) ltac:(auto) ltac:(unfold size in *; lia)) as TL.
      pose proof (pw_le 1 (length (bins z) - 1) ltac:(unfold size in *; lia)) as PL.
      change (pw 1) with B in PL. unfold aval in Az. assert (m = B) by lia. subst m.
      change (B / 2) with 500000000. intros [i [Hi Hp]].
      assert (i < 29 \/ 29 <= i) as [L|L] by lia.
      + pose proof (Z.pow_le_mono_r 2 i 28 ltac:(lia) ltac:(lia)). lia.
      + pose proof (Z.pow_le_mono_r 2 29 i ltac:(lia) ltac:(lia)). lia.
    - rewrite Vh. exact Hf.
    - rewrite Ea. cbn [bind].
      destruct (op_mul_ok a a ltac:(auto) ltac:(auto) ltac:(auto) ltac:(auto)) as [r [Er [Cr Vr]]].
      exists r. splits; auto. rewrite Vr, Va, Vh, pow_double by lia. f_equal. lia. }
  unfold op_pow. destruct (exp_fuel y) as [|f] eqn:Ef.
  { unfold exp_fuel in Ef. lia. }
  assert (FF : forall m, 0 <= m <= B -> 2 * Z.log2 m + (if Z.odd m then 1 else 0) + 1 <= Z.of_nat f - 1).
  { intros m Hm. pose proof (exp_fuel_enough y m Hy ltac:(lia)). rewrite Ef in H. lia. }
  destruct (Z.even n) eqn:En.
  - apply Even; auto; try lia.
    pose proof (FF (n / 2) ltac:(Z.to_euclidean_division_equations; lia)). lia.
  - cbn [exponentiate]. rewrite equals_int32_0 by assumption. cbn [bind].
    replace (aval y =? 0) with false by lia.
    rewrite equals_int32_gen by (auto; unfold INT32_MIN, INT32_MAX; lia). rewrite Ny.
    change (Bool.eqb true (1 <? 0) || (1 =? 0)) with false. rewrite andb_false_r. cbn [bind].
    rewrite is_odd_spec by assumption. cbn [bind].
    assert (On : Z.odd n = true) by (rewrite <- Z.negb_even, En; reflexivity).
    rewrite Vy, Z.odd_opp, On.
    destruct (Int_of_int64_ok 1 0) as [one [Eone [Vone [Cone _]]]]; [unfold INT64_MIN, INT64_MAX; lia|].
    rewrite Eone. cbn [bind]. rewrite pw_0 in Vone.
    destruct (op_sub_ok y one Hy ltac:(auto) ltac:(auto) ltac:(auto)) as [ym [Em [Cm Vm]]].
    rewrite Em. cbn [bind].
    destruct f as [|f]; [specialize (FF 0 ltac:(lia)); cbn in FF; lia|].
    destruct (Even f ym (n + 1) Cm) as [a [Ea [Ca Va]]]; try lia.
    + rewrite Z.even_add, En. reflexivity.
    + pose proof (FF ((n + 1) / 2) ltac:(Z.to_euclidean_division_equations; lia)). lia.
    + rewrite Ea. cbn [bind].
      destruct (op_mul_ok x a Hx ltac:(auto) Tx ltac:(auto)) as [r [Er [Cr Vr]]].
      exists r. splits; auto. rewrite Vr, Va. replace (n + 2) with (Z.succ (n + 1)) by lia.
      rewrite Z.pow_succ_r by lia. reflexivity.
Qed.
