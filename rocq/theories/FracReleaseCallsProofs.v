(** Programs of Frac calls compiled without assertions, exceptions caught. *)
From Coq Require Import ZArith Lia Ascii ZifyBool Znumtheory.
From Verif Require Import Base IntModel IntSpec IntBasics IntAddSub IntMul IntDiv IntMod IntScale IntPowDefined
  IntPowExact IOModel IOSpec IOProofs PropsInt IntHistory IntCalls FracModel FracSpec FracProofs FracIO PropsFrac FracHistory
  ReleaseModel ReleaseSpec ReleaseProofs ReleaseProofs2 PropsRelease FracReleaseModel FracReleaseProofs PropsFracRelease
  ReleaseCallsModel ReleaseCallsSpec ReleaseCallsProofs CatchModel FracReleaseCallsModel FracReleaseCallsSpec.
Local Open Scope list_scope.
Local Open Scope Z_scope.

Definition wfrac (f : Frac) : Prop := wf (top f) /\ wf (bot f).
Definition pr (f : Frac) : pair_ := (val (top f), val (bot f)).

(** *** Greatest common divisors *)
Lemma gcd_loop_nd_sound : forall fuel a b, wf a -> wf b -> 0 <= val b <= val a ->
  (if val b =? 0 then 1 else 2 + todo (val b) (val a mod val b)) <= Z.of_nat fuel ->
  (exists g, gcd_loop_nd fuel a b = Ok g /\ wf g /\ val g = Z.gcd (val a) (val b)) \/ gcd_loop_nd fuel a b = Throw OutOfRange.
Proof.
  induction fuel as [|f IH]; intros a b Ha Hb Hv Hf.
  { exfalso. unfold todo in Hf. destruct (val b =? 0); [lia|].
    destruct (_ =? 0); [lia|]. pose proof (Z.log2_nonneg (val b * (val a mod val b))). lia. }
  cbn [gcd_loop_nd]. rewrite equals_int32_0 by auto. cbn [bind].
  assert (Eb : aval b = val b) by (apply val_nonneg_abs; auto; lia).
  rewrite Eb. destruct (Z.eqb_spec (val b) 0) as [Z0|Z0].
  - rewrite Z0. left. exists a. splits; auto. rewrite Z.gcd_0_r. lia.
  - destruct (mod_sound_nd a b Ha Hb) as [(r & Er & Wr & _ & Vr)|[(_ & Z1 & _)|[_ E]]]; [|contradiction|rewrite E; right; reflexivity].
    rewrite Er. cbn [bind]. assert (0 <= val a mod val b < val b) by ldiv.
    destruct (IH b r Hb Wr) as [(g & E & W & V)|E]; [lia| |left|right; exact E].
    { rewrite Vr. destruct (Z.eqb_spec (val a mod val b) 0) as [R|R].
      - unfold todo in Hf. rewrite R in Hf. change (0 =? 0) with true in Hf. cbv iota in Hf. lia.
      - pose proof (todo_decr (val b) (val a mod val b)). lia. }
    exists g. splits; auto. rewrite V, Vr, Z.gcd_comm, Z.gcd_mod by lia. apply Z.gcd_comm.
Qed.
Lemma gcd_nd_sound x y : wf x -> wf y ->
  (exists g, GCD_nd x y = Ok g /\ wf g /\ val g = Z.gcd (val x) (val y)) \/ GCD_nd x y = Throw OutOfRange.
Proof.
  intros Hx Hy. unfold GCD_nd. destruct (abs_Int_ok x Hx) as (a & -> & Ha & Va). destruct (abs_Int_ok y Hy) as (b & -> & Hb & Vb).
  cbn [bind]. rewrite op_lt_spec by auto. cbn [bind].
  assert (Fu : forall a b, wf a -> wf b -> 0 <= val b <= val a ->
    (if val b =? 0 then 1 else 2 + todo (val b) (val a mod val b)) <= Z.of_nat (gcd_fuel b)).
  { clear. intros a b Ha Hb Hv. unfold gcd_fuel. destruct (Z.eqb_spec (val b) 0); [lia|].
    pose proof (todo_bound b (val a mod val b) Hb ltac:(lia) ltac:(ldiv)). lia. }
  replace (Z.gcd (val x) (val y)) with (Z.gcd (val a) (val b)) by (rewrite Va, Vb, Z.gcd_abs_l, Z.gcd_abs_r; reflexivity).
  destruct (Z.ltb_spec (val a) (val b)) as [L|L]; unfold nochecks_gcd_nd.
  - rewrite Z.gcd_comm. apply gcd_loop_nd_sound; auto; [lia|apply Fu; auto; lia].
  - apply gcd_loop_nd_sound; auto; [lia|apply Fu; auto; lia].
Qed.

(** *** normalize *)
Definition ends_nd (p : fst_res) (n d : Z) : Prop :=
  wfrac (fst p) /\
  match snd p with
  | Ok _ => lowest n d (pr (fst p))
  | Throw DivideByZero => n = 0 /\ d = 0 /\ pr (fst p) = (0, 0)
  | Throw OutOfRange => unreduced n d (pr (fst p))
  | _ => False
  end.
Lemma exact_quot a g : (g | a) -> g <> 0 -> a = g * Z.quot a g.
Proof. intros [k ->] N. rewrite Z.quot_mul by auto. ring. Qed.
Lemma gcd_sign s n d : sign s -> Z.gcd (s * n) (s * d) = Z.gcd n d.
Proof. intros [-> | ->]; rewrite ?Z.mul_1_l; auto. rewrite <- !Z.opp_eq_mul_m1 || idtac. replace (-1 * n) with (- n) by ring. replace (-1 * d) with (- d) by ring. rewrite Z.gcd_opp_l, Z.gcd_opp_r. reflexivity. Qed.
Lemma reduce_sound f n d s : wfrac f -> sign s -> pr f = (s * n, s * d) -> 0 <= s * d ->
  ends_nd (match GCD_nd (top f) (bot f) with
  | Ok c => fthen (put_top f (div_assign_nd (top f) (Some c))) (fun f => put_bot f (div_assign_nd (bot f) (Some c)))
  | m => fail_with f m
  end) n d.
Proof.
  intros [Wt Wb] Sg Ep Hd. unfold pr in Ep. injection Ep as Et Eb.
  destruct (gcd_nd_sound (top f) (bot f) Wt Wb) as [(g & -> & Wg & Vg)| ->].
  2:{ unfold ends_nd, fail_with. cbn [fst snd]. split; [split; auto|]. exists s. splits; auto. left. unfold pr. congruence. }
  rewrite Et, Eb, gcd_sign in Vg by auto.
  assert (D1 : (Z.gcd n d | s * n)) by (apply Z.divide_mul_r, Z.gcd_divide_l).
  assert (D2 : (Z.gcd n d | s * d)) by (apply Z.divide_mul_r, Z.gcd_divide_r).
  unfold div_assign_nd. cbn [rd].
  destruct (div_left_sound (top f) g Wt Wg) as [(t & E & W1 & N1 & V1)|[(Z0 & E)|(l & E & W1 & L1)]]; rewrite E; cbn [put_top fthen fst snd].
  - cbn [bot]. destruct (div_left_sound (bot f) g Wb Wg) as [(b & E2 & W2 & N2 & V2)|[(Z0 & E2)|(l & E2 & W2 & L2)]]; rewrite E2; cbn [put_bot fst snd top].
    + unfold ends_nd, put_bot. cbn [fst snd top]. split; [split; auto|]. rewrite Vg in *. unfold lowest, pr. cbn [top bot fst snd].
      rewrite V1, V2, Et, Eb. splits; auto.
      * apply Z.quot_pos; auto. pose proof (Z.gcd_nonneg n d). lia.
      * exists s. splits; auto; apply exact_quot; auto.
    + contradiction.
    + unfold ends_nd, put_bot. cbn [fst snd top]. split; [split; auto|]. exists s. splits; auto. right. right. unfold pr. cbn [top bot fst snd].
      rewrite Vg in *. rewrite V1, Et. split; [apply exact_quot; auto|]. rewrite <- Eb. exact L2.
  - unfold ends_nd, put_top. cbn [fthen fst snd]. destruct f as [t b]. cbn [top bot] in *. split; [split; auto|].
    rewrite Vg in Z0. apply Z.gcd_eq_0 in Z0 as [-> ->]. splits; auto. unfold pr. cbn [top bot]. rewrite Et, Eb, !Z.mul_0_r. reflexivity.
  - unfold ends_nd, put_top. cbn [fthen fst snd]. split; [split; auto|]. exists s. splits; auto. right. left. unfold pr. cbn [top bot fst snd].
    rewrite <- Et, <- Vg. auto.
Qed.
Lemma normalize_sound f : wfrac f -> ends_nd (normalize_nd f) (val (top f)) (val (bot f)).
Proof.
  intros W. destruct (W) as [Wt Wb]. unfold normalize_nd, is_negative. destruct (negative (bot f)) eqn:N.
  - destruct (negate_nonneg (bot f) Wb N) as (b & -> & W2 & N2 & V2 & _). cbn [set_bot fthen top].
    destruct (negate_ok (top f) Wt) as (t & -> & V1 & _ & W1 & _). cbn [set_top fthen bot].
    apply (reduce_sound (mkFrac t b) _ _ (-1)); [split; auto|right; auto|unfold pr; cbn [top bot]; rewrite V1, V2; f_equal; ring|].
    pose proof (val_aval b) as Vb. rewrite N2 in Vb. pose proof (aval_nonneg b W2). lia.
  - cbn [fthen]. apply (reduce_sound f _ _ 1); auto; [left; auto|unfold pr; f_equal; ring|].
    pose proof (val_aval (bot f)) as Vb. rewrite N in Vb. pose proof (aval_nonneg _ Wb). lia.
Qed.
Definition makes_nd (m : res Frac) (n d : Z) : Prop :=
  (exists r, m = Ok r /\ wfrac r /\ d <> 0 /\ lowest n d (pr r)) \/ (d = 0 /\ m = Throw DivideByZero) \/ m = Throw OutOfRange.
Lemma result_makes p n d : ends_nd p n d -> d <> 0 -> makes_nd (result p) n d.
Proof.
  destruct p as [f m]. intros [W H] N. unfold result. cbn [fst snd] in *. destruct m as [[]|[]| | |]; try contradiction; cbn [bind].
  - left. exists f. auto.
  - destruct H as (_ & Z & _). contradiction.
  - right. right. reflexivity.
Qed.
Lemma make_sound a b : wf a -> wf b -> makes_nd (Frac_make_nd a b) (val a) (val b).
Proof.
  intros Ha Hb. unfold Frac_make_nd. rewrite equals_int32_0 by auto. cbn [bind]. pose proof (abs_val b Hb) as A.
  destruct (Z.eqb_spec (aval b) 0) as [E|E].
  - right. left. split; [lia|auto].
  - apply result_makes; [|lia]. apply (normalize_sound (mkFrac a b)). split; auto.
Qed.

(** *** Operators that return a new Frac *)
Ltac mul_ a b := let r := fresh "p" in let E := fresh "E" in let W := fresh "W" in let V := fresh "V" in
  destruct (mul_nd_ok a b) as (r & E & W & V); auto; rewrite E; cbn [bind].
Ltac sum_ L := let r := fresh "t" in let E := fresh "E" in let W := fresh "W" in let V := fresh "V" in
  destruct L as [(r & E & W & V)|[([E|E] & _)|[_ E]]]; [|discriminate E|discriminate E|]; [rewrite E; cbn [bind]; cbn [zresult] in V|rewrite E; right; right; reflexivity].
Lemma makes_vals m n d n' d' : makes_nd m n d -> n = n' -> d = d' -> makes_nd m n' d'.
Proof. intros H -> ->. exact H. Qed.
Ltac fin_ := eapply makes_vals; [apply make_sound; auto|cbn [num]; nia|cbn [den]; nia].
Lemma bin_sound o x y : wfrac x -> wfrac y ->
  makes_nd (Fbin_nd o x y) (num o (val (top x)) (val (bot x)) (val (top y)) (val (bot y))) (den o (val (top x)) (val (bot x)) (val (top y)) (val (bot y))).
Proof.
  intros [Tx Bx] [Ty By]. destruct o; cbn [Fbin_nd].
  - unfold F_add_nd. mul_ (top x) (bot y). mul_ (top y) (bot x). sum_ (add_sound_nd p p0 W W0). mul_ (bot x) (bot y). fin_.
  - unfold F_sub_nd. mul_ (top x) (bot y). mul_ (top y) (bot x). sum_ (sub_sound_nd p p0 W W0). mul_ (bot x) (bot y). fin_.
  - unfold F_mul_nd. mul_ (top x) (top y). mul_ (bot x) (bot y). fin_.
  - unfold F_div_nd. mul_ (top x) (bot y). mul_ (bot x) (top y). fin_.
Qed.
Lemma intl_sound o a x : wf a -> wfrac x ->
  makes_nd (IFbin_nd o a x) (num o (val a) 1 (val (top x)) (val (bot x))) (den o (val a) 1 (val (top x)) (val (bot x))).
Proof.
  intros Wa [Tx Bx]. destruct o; cbn [IFbin_nd].
  - unfold IF_add_nd. mul_ a (bot x). sum_ (add_sound_nd p (top x) W Tx). fin_.
  - unfold IF_sub_nd. mul_ a (bot x). sum_ (sub_sound_nd p (top x) W Tx). fin_.
  - unfold IF_mul_nd. mul_ a (top x). fin_.
  - unfold IF_div_nd. mul_ a (bot x). fin_.
Qed.
Lemma intr_sound o x a : wf a -> wfrac x ->
  makes_nd (FIbin_nd o x a) (num o (val (top x)) (val (bot x)) (val a) 1) (den o (val (top x)) (val (bot x)) (val a) 1).
Proof.
  intros Wa [Tx Bx]. destruct o; cbn [FIbin_nd].
  - unfold FI_add_nd. mul_ a (bot x). sum_ (add_sound_nd (top x) p Tx W). fin_.
  - unfold FI_sub_nd. mul_ a (bot x). sum_ (sub_sound_nd (top x) p Tx W). fin_.
  - unfold FI_mul_nd. mul_ a (top x). fin_.
  - unfold FI_div_nd. mul_ (bot x) a. fin_.
Qed.

(** *** Powers of numerator and denominator: the same exponent in both *)
Definition powers2 (x x' : Int) (top : Z) (exact : Prop) (m m' : res Int) : Prop :=
  (exists e r r', 0 <= e <= top /\ (exact -> e = top) /\ m = Ok r /\ m' = Ok r' /\ wf r /\ wf r' /\ val r = val x ^ e /\ val r' = val x' ^ e) \/
  (m = Throw OutOfRange /\ m' = Throw OutOfRange).
Lemma powers2_le x x' t (P : Prop) t' (P' : Prop) m m' : t <= t' -> (P' -> P /\ t = t') -> powers2 x x' t P m m' -> powers2 x x' t' P' m m'.
Proof.
  intros L I [(e & r & r' & H & X & R)|H]; [left|right; auto]. exists e, r, r'. split; [lia|]. split; [|exact R].
  intros HP. destruct (I HP) as [HP' <-]. auto.
Qed.
Lemma powers2_mul x x' t P m m' : wf x -> wf x' -> powers2 x x' t P m m' -> powers2 x x' (t + 1) P (a <- m ;; op_mul_nd x a) (a <- m' ;; op_mul_nd x' a).
Proof.
  intros Hx Hx' [(e & r & r' & He & X & -> & -> & W & W' & V & V')|[-> ->]]; [|right; auto]. cbn [bind].
  destruct (mul_nd_ok x r Hx W) as (p & Ep & Wp & Vp). destruct (mul_nd_ok x' r' Hx' W') as (p' & Ep' & Wp' & Vp').
  left. exists (Z.succ e), p, p'. splits; auto; try lia; try (intros HP; rewrite (X HP); lia); rewrite Z.pow_succ_r by lia; congruence.
Qed.
Lemma powers2_square x x' t P m m' : powers2 x x' t P m m' -> powers2 x x' (2 * t) P (a <- m ;; op_mul_nd a a) (a <- m' ;; op_mul_nd a a).
Proof.
  intros [(e & r & r' & He & X & -> & -> & W & W' & V & V')|[-> ->]]; [|right; auto]. cbn [bind].
  destruct (mul_nd_ok r r W W) as (p & Ep & Wp & Vp). destruct (mul_nd_ok r' r' W' W') as (p' & Ep' & Wp' & Vp').
  left. exists (e + e), p, p'. splits; auto; try lia; try (intros HP; rewrite (X HP); lia); rewrite Z.pow_add_r by lia; congruence.
Qed.
Lemma exp_powers2 x x' : wf x -> wf x' -> forall fuel y, wf y -> nonneg y ->
  2 * Z.log2 (aval y) + (if Z.odd (aval y) then 1 else 0) + 1 <= Z.of_nat fuel ->
  powers2 x x' (aval y) (no_radix_power (aval y)) (exponentiate_nd fuel x y) (exponentiate_nd fuel x' y).
Proof.
  intros Hx Hx'. induction fuel as [|f IH]; intros y Hy Hyn Hf.
  { pose proof (Z.log2_nonneg (aval y)). destruct (Z.odd (aval y)); lia. }
  pose proof (aval_nonneg y Hy) as Hy0.
  cbn [exponentiate_nd]. rewrite equals_int32_0 by auto. rewrite !bind_ok.
  destruct (Z.eqb_spec (aval y) 0) as [E0|E0].
  { left. rewrite set_value_ok by (unfold INT32_MIN, INT32_MAX; lia). eexists 0, _, _.
    splits; try reflexivity; try lia; apply one_canonical. }
  destruct (equals_int32 y 1) as [t|e| | |] eqn:E1.
  2-5: exfalso; rewrite (equals_int32_gen y 1) in E1 by (auto; unfold INT32_MIN, INT32_MAX; lia); discriminate E1.
  rewrite !bind_ok. destruct t.
  { left. exists 1, x, x'. splits; auto; try lia; try (rewrite Z.pow_1_r; auto).
    intros N. rewrite equals_one in E1 by auto. injection E1 as E1. lia. }
  rewrite is_odd_spec, !bind_ok by auto.
  rewrite (val_nonneg_aval y Hyn).
  destruct (Z.odd (aval y)) eqn:Eo.
  - destruct (Int_of_int64_ok 1 0) as (one & Ho & Hov & Hoc & Hon & _); [unfold INT64_MIN, INT64_MAX; lia|].
    rewrite Ho, !bind_ok. rewrite pw_0 in Hov.
    destruct (sub_one_nd y one Hy (canonical_wf _ Hoc) ltac:(lia)) as [E|(ym1 & Hs & Hw & Hv & Hz)]; [rewrite E; right; split; reflexivity|].
    rewrite Hs, !bind_ok. rewrite (val_nonneg_aval y Hyn) in Hv.
    assert (Hyn' : nonneg ym1).
    { unfold nonneg. destruct (negative ym1) eqn:E; auto.
      pose proof (aval_nonneg _ Hw). rewrite val_aval, E in Hv.
      assert (H0 : val ym1 = 0) by (rewrite val_aval, E; lia). specialize (Hz H0). congruence. }
    rewrite (val_nonneg_aval _ Hyn') in Hv.
    apply powers2_le with (aval ym1 + 1) (no_radix_power (aval ym1)); [lia| |].
    { intros N. split; [|lia]. rewrite Hv. apply no_radix_dec; auto. }
    apply powers2_mul; auto. apply IH; auto.
    rewrite Hv. destruct (Z.eq_dec (aval y) 1) as [E|E].
    + rewrite E in *. change (Z.log2 (1-1)) with 0. change (Z.odd (1-1)) with false. change (Z.log2 1) with 0 in Hf. lia.
    + destruct (exp_measure_odd (aval y)) as [Hm Ho2]; [lia|auto|]. rewrite Ho2. lia.
  - destruct (divide_by_int_ok y 2 false Hy) as (h & Hh & Hw & Hneg & Hsz & Hv); [unfold INT32_MAX; lia|].
    assert (Ev : aval y = 2 * (aval y / 2)) by (rewrite (Z.div_mod (aval y) 2) at 1 by lia; rewrite Zmod_odd, Eo; lia).
    rewrite Hh, !bind_ok. apply powers2_le with (2 * aval h) (no_radix_power (aval h)); [lia| |].
    { intros N. split; [|lia]. rewrite Hv. apply no_radix_half; auto. }
    apply powers2_square. apply IH; auto.
    rewrite Hv. pose proof (exp_measure_even (aval y)). destruct (Z.odd (aval y / 2)); lia.
Qed.
Lemma pow_pair x x' y : wf x -> wf x' -> wf y -> nonneg y ->
  (exists e r r', exponent_of (val y) e /\ op_pow_nd x y = Ok r /\ op_pow_nd x' y = Ok r' /\ wf r /\ wf r' /\ val r = val x ^ e /\ val r' = val x' ^ e) \/
  (op_pow_nd x y = Throw OutOfRange /\ op_pow_nd x' y = Throw OutOfRange).
Proof.
  intros Hx Hx' Hy Ny. unfold op_pow_nd. pose proof (aval_nonneg y Hy) as P.
  destruct (exp_powers2 x x' Hx Hx' (exp_fuel y) y Hy Ny) as [(e & r & r' & He & X & R)|H]; [pose proof (exp_fuel_enough y (aval y) Hy); lia| |right; exact H].
  left. exists e, r, r'. split; [|exact R]. unfold exponent_of. rewrite abs_val by auto. split; [exact He|].
  intros [_ N]. auto.
Qed.
(** The exponent both powers of Frac use *)
Lemma abs_exp a : wf a -> exists e, (if negative a then op_neg a else Ok a) = Ok e /\ wf e /\ nonneg e /\ val e = Z.abs (val a).
Proof.
  intros Wa. pose proof (val_aval a) as V. pose proof (aval_nonneg a Wa) as P. destruct (negative a) eqn:N.
  - destruct (op_neg_nonneg a Wa N) as (e & E & We & Ne & Ve & _). exists e. splits; auto. lia.
  - exists a. splits; auto. lia.
Qed.
Lemma exponent_abs n e : exponent_of (Z.abs n) e -> exponent_of n e.
Proof. unfold exponent_of. rewrite Z.abs_involutive. auto. Qed.
Lemma exponent_zero e : exponent_of 0 e -> e = 0.
Proof. intros [H _]. cbn in H. lia. Qed.
Lemma pow_sound x a : wfrac x -> wf a ->
  F_pow_nd x a = Throw OutOfRange \/
  exists e, exponent_of (val a) e /\
    ((0 <= val a -> makes_nd (F_pow_nd x a) (val (top x) ^ e) (val (bot x) ^ e)) /\
     (val a < 0 -> makes_nd (F_pow_nd x a) (val (bot x) ^ e) (val (top x) ^ e))).
Proof.
  intros [Wt Wb] Wa. destruct (abs_exp a Wa) as (n & En & Wn & Nn & Vn). unfold F_pow_nd, is_negative.
  pose proof (val_aval a) as Va. pose proof (aval_nonneg a Wa) as Pa. destruct (negative a) eqn:N.
  - rewrite En. cbn [bind]. destruct (pow_pair (bot x) (top x) n Wb Wt Wn Nn) as [(e & r & r' & X & -> & -> & W & W' & V & V')|[-> _]]; [|left; reflexivity].
    right. cbn [bind]. rewrite Vn in X. apply exponent_abs in X. exists e. split; auto. pose proof (make_sound r r' W W') as M. rewrite V, V' in M. split; [|auto].
    intros H. replace (val a) with 0 in X by lia. apply exponent_zero in X as ->. rewrite !Z.pow_0_r in *. exact M.
  - injection En as <-. destruct (pow_pair (top x) (bot x) a Wt Wb Wn Nn) as [(e & r & r' & X & -> & -> & W & W' & V & V')|[-> _]]; [|left; reflexivity].
    right. cbn [bind]. exists e. split; auto. pose proof (make_sound r r' W W') as M. rewrite V, V' in M. split; [auto|lia].
Qed.

(** *** In place *)
Lemma mul_assign_nd_ok x o : wf x -> (forall y, o = Some y -> wf y) -> exists r, mul_assign_nd x o = Ok r /\ wf r /\ val r = val x * val (rd x o).
Proof. intros Hx Ho. destruct (mul_assign_ok x o Hx Ho) as (r & E & W & V & _). exists r. splits; auto. apply mul_assign_keeps. exact E. Qed.
Definition stops (x : Frac) (p : fst_res) (n d : Z) : Prop := p = (x, Throw OutOfRange) \/ ends_nd p n d.
Lemma stops_norm x t b n d : wf t -> wf b -> val t = n -> val b = d -> stops x (normalize_nd (mkFrac t b)) n d.
Proof. intros Wt Wb <- <-. right. apply (normalize_sound (mkFrac t b)). split; auto. Qed.
Lemma assign_sound_nd o x y : wfrac x -> (forall g, y = Some g -> wfrac g) -> let g := rd x y in
  stops x (Fasg_nd o x y) (num o (val (top x)) (val (bot x)) (val (top g)) (val (bot g))) (den o (val (top x)) (val (bot x)) (val (top g)) (val (bot g))).
Proof.
  intros [Wt Wb] Hy g. assert (Wg : wfrac g) by (unfold g; destruct y; [apply Hy; reflexivity|split; auto]). destruct Wg as [Wtg Wbg].
  assert (Bo : forall z, wf z -> bot g = rd (bot x) (bot_of y)) by (intros; unfold g; destruct y; reflexivity).
  assert (HB : forall z, bot_of y = Some z -> wf z) by (destruct y; cbn; [intros ? [= <-]; exact Wbg|discriminate]).
  assert (HT : forall z, top_of y = Some z -> wf z) by (destruct y; cbn; [intros ? [= <-]; exact Wtg|discriminate]).
  assert (RB : rd (bot x) (bot_of y) = bot g) by (unfold g; destruct y; reflexivity).
  assert (RT : rd (top x) (top_of y) = top g) by (unfold g; destruct y; reflexivity).
  destruct o; cbn [Fasg_nd].
  - unfold F_add_assign_nd, F_addsub_assign_nd. fold g. mul_ (top x) (bot g). mul_ (top g) (bot x).
    destruct (add_sound_nd p p0 W W0) as [(t & Et & W3 & V3)|[([Et|Et] & _)|[_ Et]]]; try discriminate Et; rewrite Et; [|left; reflexivity]. cbn [set_top fthen bot].
    destruct (mul_assign_nd_ok (bot x) (bot_of y) Wb HB) as (b & -> & W4 & V4). cbn [set_bot fthen top]. rewrite RB in V4.
    apply stops_norm; auto. cbn [zresult num] in *. lia.
  - unfold F_sub_assign_nd, F_addsub_assign_nd. fold g. mul_ (top x) (bot g). mul_ (top g) (bot x).
    destruct (sub_sound_nd p p0 W W0) as [(t & Et & W3 & V3)|[([Et|Et] & _)|[_ Et]]]; try discriminate Et; rewrite Et; [|left; reflexivity]. cbn [set_top fthen bot].
    destruct (mul_assign_nd_ok (bot x) (bot_of y) Wb HB) as (b & -> & W4 & V4). cbn [set_bot fthen top]. rewrite RB in V4.
    apply stops_norm; auto. cbn [zresult num] in *. lia.
  - unfold F_mul_assign_nd. destruct (mul_assign_nd_ok (top x) (top_of y) Wt HT) as (t & -> & W3 & V3). cbn [set_top fthen bot].
    destruct (mul_assign_nd_ok (bot x) (bot_of y) Wb HB) as (b & -> & W4 & V4). cbn [set_bot fthen top]. rewrite RB in V4. rewrite RT in V3. apply stops_norm; auto.
  - unfold F_div_assign_nd. fold g. destruct (mul_assign_nd_ok (top x) (Some (bot g)) Wt ltac:(intros ? [= <-]; auto)) as (t & -> & W3 & V3). cbn [set_top fthen bot].
    destruct (mul_assign_nd_ok (bot x) (Some (top g)) Wb ltac:(intros ? [= <-]; auto)) as (b & -> & W4 & V4). cbn [set_bot fthen top]. apply stops_norm; auto.
Qed.
Lemma int_assign_sound o x a : wfrac x -> wf a ->
  (wfrac (fst (FIasg_left o x a)) /\ snd (FIasg_left o x a) = Throw OutOfRange /\ (o = FAdd \/ o = FSub) /\
     bot (fst (FIasg_left o x a)) = bot x /\ sum_left (val (top x)) (val (bot x) * val a) (val (top (fst (FIasg_left o x a))))) \/
  ends_nd (FIasg_left o x a) (num o (val (top x)) (val (bot x)) (val a) 1) (den o (val (top x)) (val (bot x)) (val a) 1).
Proof.
  intros [Wt Wb] Wa. destruct o; cbn [FIasg_left].
  - unfold FI_sum_left, add_assign_left. mul_ (bot x) a. destruct (addsub_left_sound false (top x) (Some p) Wt ltac:(intros ? [= <-]; auto)) as [(r & -> & W3 & V3)|(l & -> & W3 & _ & L)]; cbn [rd] in *.
    + right. unfold put_top. cbn [fthen fst snd]. destruct (normalize_sound (mkFrac r (bot x)) ltac:(split; auto)) as [H1 H2]. cbn [top bot] in *. cbn [num den]. rewrite V3, V in H2.
      replace (val (top x) * 1 + val a * val (bot x)) with (val (top x) + val (bot x) * val a) by ring. rewrite Z.mul_1_r. split; auto.
    + left. unfold put_top. cbn [fthen fst snd top bot]. rewrite V in L. splits; auto. split; auto.
  - unfold FI_sum_left, sub_assign_left. mul_ (bot x) a. destruct (addsub_left_sound true (top x) (Some p) Wt ltac:(intros ? [= <-]; auto)) as [(r & -> & W3 & V3)|(l & -> & W3 & _ & L)]; cbn [rd] in *.
    + right. unfold put_top. cbn [fthen fst snd]. destruct (normalize_sound (mkFrac r (bot x)) ltac:(split; auto)) as [H1 H2]. cbn [top bot] in *. cbn [num den]. rewrite V3, V in H2.
      replace (val (top x) * 1 - val a * val (bot x)) with (val (top x) - val (bot x) * val a) by ring. rewrite Z.mul_1_r. split; auto.
    + left. unfold put_top. cbn [fthen fst snd top bot]. rewrite V in L. splits; auto. split; auto.
  - right. cbn [FIasg_nd]. unfold FI_mul_assign_nd. destruct (mul_assign_nd_ok (top x) (Some a) Wt ltac:(intros ? [= <-]; auto)) as (t & -> & W3 & V3). cbn [set_top fthen rd] in *.
    destruct (normalize_sound (mkFrac t (bot x)) ltac:(split; auto)) as [H1 H2]. cbn [top bot] in *. cbn [num den]. rewrite V3 in H2. rewrite Z.mul_1_r. split; auto.
  - right. cbn [FIasg_nd]. unfold FI_div_assign_nd. destruct (mul_assign_nd_ok (bot x) (Some a) Wb ltac:(intros ? [= <-]; auto)) as (t & -> & W3 & V3). cbn [set_bot fthen rd] in *.
    destruct (normalize_sound (mkFrac (top x) t) ltac:(split; auto)) as [H1 H2]. cbn [top bot] in *. cbn [num den]. rewrite V3 in H2. rewrite Z.mul_1_r. split; auto.
Qed.
Lemma pow_assign_sound x a : wfrac x -> wf a -> exists e, (exponent_of (val a) e) /\ stops x (F_pow_assign_nd x a) (val (top x) ^ e) (val (bot x) ^ e).
Proof.
  intros [Wt Wb] Wa. destruct (abs_exp a Wa) as (n & En & Wn & Nn & Vn). unfold F_pow_assign_nd, is_negative. rewrite En. unfold pow_assign_nd. cbn [rd].
  destruct (pow_pair (bot x) (top x) n Wb Wt Wn Nn) as [(e & r & r' & X & E & E' & W & W' & V & V')|[E E']].
  - exists e. rewrite Vn in X. apply exponent_abs in X. split; auto. rewrite E. unfold put_bot, put_top. cbn [in_place fthen fst snd top bot]. rewrite E'. cbn [in_place fthen fst snd]. apply stops_norm; auto.
  - exists (Z.abs (val a)). split; [split; [lia|auto]|]. rewrite E. left. destruct x. reflexivity.
Qed.

(** *** Texts *)
Lemma parts_sound t b : wf t -> wf b -> val b <> 0 ->
  makes_nd (z <- equals_int32 b 0 ;; if z : bool then Throw InvalidArgument else result (normalize_nd (mkFrac t b))) (val t) (val b).
Proof.
  intros Wt Wb Nb. rewrite equals_int32_0 by auto. cbn [bind]. pose proof (abs_val b Wb). destruct (Z.eqb_spec (aval b) 0) as [E|E]; [lia|].
  apply result_makes; auto. apply (normalize_sound (mkFrac t b)). split; auto.
Qed.
Lemma lowest_one n : lowest n 1 (n, 1).
Proof. unfold lowest. rewrite Z.gcd_1_r. cbn [fst snd]. splits; try lia. exists 1. splits; try lia. left. reflexivity. Qed.
Lemma string_sound s n d : frac_string s n d -> d <> 0 -> makes_nd (Frac_of_string_nd s) n d.
Proof.
  intros H Nd. destruct H as [|s n Hs|s q n d Hs Hq].
  - left. exists (mkFrac (mkInt [0] false) one). splits; [reflexivity| |auto|apply (lowest_one 0)].
    split; [apply canonical_zero|apply one_canonical].
  - assert (Ns : find_slash s = None) by (apply find_slash_none; eapply int_text_no_slash; eauto).
    destruct (int_text_cons _ _ Hs) as (c & p' & Ep & _). unfold Frac_of_string_nd. rewrite Ns.
    destruct (Int_of_string_ok s n Hs) as (x & E & C & V). rewrite E. cbn [bind]. rewrite int1_ok. cbn [bind bot].
    rewrite Ep. rewrite <- V. apply (parts_sound x one); auto. apply one_canonical.
  - assert (Ns : find_slash (s ++ SLASH :: q) = Some (s, q)) by (apply find_slash_some; split; auto; eapply int_text_no_slash; eauto).
    destruct (int_text_cons _ _ Hs) as (c & p' & Ep & _). unfold Frac_of_string_nd. change "/"%char with SLASH. rewrite Ns.
    destruct (Int_of_string_ok s n Hs) as (x & E & C & V). destruct (Int_of_string_ok q d Hq) as (y & E' & C' & V').
    rewrite E. cbn [bind]. rewrite E'. cbn [bind bot]. rewrite Ep. cbn [app].
    rewrite <- V, <- V' in *. apply parts_sound; auto.
Qed.
Lemma string_bad s : (forall n d, frac_string s n d -> d = 0) -> Frac_of_string_nd s = Throw InvalidArgument.
Proof.
  intros H. rewrite string_released. destruct (frac_string_cases s) as [(n & d & F)|F].
  - pose proof (H n d F). subst. rewrite (Frac_of_string_zero s n F). reflexivity.
  - rewrite (Frac_of_string_bad s F). reflexivity.
Qed.
Lemma string_cases s : (exists n d, frac_string s n d /\ d <> 0) \/ (forall n d, frac_string s n d -> d = 0).
Proof.
  destruct s as [|c s]; [left; exists 0, 1; split; [constructor|lia]|]. 
  destruct (int_text_dec (c :: s)) as [[n Hl]|Hl]; [left; exists n, 1; split; [constructor; auto|lia]|].
  destruct (frac_string_cases (c :: s)) as [(n & d & F)|F]; [|right; intros n d G; destruct (F n d G)].
  destruct (Z.eq_dec d 0) as [->|N]; [|left; eauto]. right. intros n' d' F'. destruct (Z.eq_dec d' 0) as [E|N]; [exact E|exfalso].
  pose proof (Frac_of_string_zero _ _ F) as Z1. destruct (Frac_of_string_makes _ _ _ F' N) as [H|H]; rewrite Z1 in H.
  - destruct H as (_ & H); congruence || (decompose [and ex] H; congruence).
  - decompose [and ex or] H; congruence.
Qed.

(** *** Comparisons *)
Lemma F_lt_sound x y : wfrac x -> wfrac y -> F_lt_nd x y = Ok (val (top x) * val (bot y) <? val (top y) * val (bot x)).
Proof. intros [Tx Bx] [Ty By]. unfold F_lt_nd. mul_ (top x) (bot y). mul_ (top y) (bot x). rewrite op_lt_spec by auto. rewrite V, V0. reflexivity. Qed.
Lemma F_eq_sound x y : wfrac x -> wfrac y -> F_eq x y = Ok ((val (top x) =? val (top y)) && (val (bot x) =? val (bot y))).
Proof. intros [Tx Bx] [Ty By]. unfold F_eq. rewrite op_eq_spec by auto. cbn [bind]. destruct (_ =? _); [|reflexivity]. rewrite op_eq_spec by auto. reflexivity. Qed.
Lemma cmp_sound c x y : wfrac x -> wfrac y -> exists r, Fcmp_nd c x y = Ok r /\ (r = true <-> pcmp c (pr x) (pr y)).
Proof.
  intros Hx Hy. destruct c; cbn [Fcmp_nd pcmp]; unfold F_ne, F_gt_nd, F_le_nd, F_ge_nd; rewrite ?F_lt_sound, ?F_eq_sound by auto; cbn [bind]; eexists; (split; [reflexivity|]); unfold pr; cbn [fst snd].
  - rewrite andb_true_iff, !Z.eqb_eq. split; [intros [-> ->]; auto|intros [= -> ->]; auto].
  - rewrite negb_true_iff, andb_false_iff, !Z.eqb_neq. split; [intros [N|N] [= E1 E2]; auto|].
    intros N. destruct (Z.eq_dec (val (top x)) (val (top y))); [|auto]. right. intros E. apply N. congruence.
  - lia.
  - lia.
  - lia.
  - lia.
Qed.

(** *** One statement *)
Definition all_wfrac (st : nat -> Frac) : Prop := forall k, wfrac (st k).
Definition int_operands (s : stmt) : Prop :=
  match s with
  | Do (HOfInt _ a) | Do (HIntL _ _ a _) | Do (HIntR _ _ _ a) | Do (HPow _ _ a) | Do (HIAssign _ _ a) | Do (HPowAssign _ a) => wf a
  | Do (HMake _ a b) => wf a /\ wf b
  | _ => True
  end.
Definition prs (st : nat -> Frac) : nat -> pair_ := fun k => pr (st k).
Definition goes (st : nat -> Frac) (s : stmt) (m : res ((nat -> Frac) * event)) : Prop :=
  exists st' ev, m = Ok (st', ev) /\ all_wfrac st' /\ pexec (prs st) s ev (prs st').
Lemma fupd_same {A} (st : nat -> A) d v : fupd st d v d = v.
Proof. unfold fupd. rewrite Nat.eqb_refl. reflexivity. Qed.
Lemma fupd_other {A} (st : nat -> A) d v k : k <> d -> fupd st d v k = st k.
Proof. intros N. unfold fupd. destruct (Nat.eqb_spec k d); [contradiction|reflexivity]. Qed.
Lemma all_fupd st d v : all_wfrac st -> wfrac v -> all_wfrac (fupd st d v).
Proof. intros H W k. unfold fupd. destruct (Nat.eqb k d); auto. Qed.
Lemma prs_same st d v : prs (fupd st d v) d = pr v.
Proof. unfold prs. rewrite fupd_same. reflexivity. Qed.
Lemma prs_other st d v k : k <> d -> prs (fupd st d v) k = prs st k.
Proof. intros N. unfold prs. rewrite fupd_other by auto. reflexivity. Qed.
Lemma goes_new st i m n d : all_wfrac st -> computes (prs st) i n d -> ~ changes_in_place i -> makes_nd m n d ->
  goes st (Do i) (try_new st (variable i) m).
Proof.
  intros Hw C Np [(r & -> & W & N & L)|[[-> ->]| ->]]; cbn [try_new]; eexists _, _; (split; [reflexivity|]); (split; [auto using all_fupd|]); cbn [pexec]; (split; [auto using prs_other|]).
  - right. exists n, d. rewrite prs_same. splits; auto. intros E. contradiction.
  - exists n. splits; auto. intros E. contradiction.
  - left. reflexivity.
Qed.
Lemma goes_in_place st i p n d : all_wfrac st -> computes (prs st) i n d -> changes_in_place i -> stops (st (variable i)) p n d ->
  goes st (Do i) (try_in_place st (variable i) p).
Proof.
  intros Hw C Ip [-> |[W H]]; unfold try_in_place.
  - cbn [snd fst]. eexists _, _. split; [reflexivity|]. split; [apply all_fupd; auto|]. cbn [pexec]. split; [intros; apply prs_other; auto|].
    left. rewrite prs_same. reflexivity.
  - destruct p as [f m]. cbn [snd fst] in *. destruct m as [[]|[]| | |]; try contradiction; eexists _, _; (split; [reflexivity|]); (split; [auto using all_fupd|]); cbn [pexec]; (split; [auto using prs_other|]); rewrite prs_same.
    + right. exists n, d. auto.
    + destruct H as (-> & -> & E). exists 0. splits; auto. intros H'. contradiction.
    + right. split; auto. left. exists n, d. auto.
Qed.
Lemma call_goes st s : all_wfrac st -> int_operands s -> goes st s (nexec st s).
Proof.
  intros Hw Ho. destruct s as [i|c a b]; [destruct i|]; cbn [nexec int_operands] in *.
  - refine (goes_new st (HDefault d) _ 0 1 Hw (c_default _ _) (fun H => H) _). left. exists (mkFrac (mkInt [0] false) one).
    splits; [reflexivity| |lia|apply (lowest_one 0)]. split; [apply canonical_zero|apply one_canonical].
  - refine (goes_new st (HOfInt d a) _ (val a) 1 Hw (c_ofint _ _ _) (fun H => H) _). left. exists (mkFrac a one).
    splits; [reflexivity| |lia|apply (lowest_one (val a))]. split; [apply Ho|apply one_canonical].
  - destruct Ho as [Wa Wb]. refine (goes_new st (HMake d a b) _ _ _ Hw (c_make _ _ _ _) (fun H => H) _). apply make_sound; auto.
  - destruct (string_cases s) as [(n & m & F & N)|B].
    + refine (goes_new st (HString d s) _ n m Hw (c_string _ _ _ _ _ F) (fun H => H) _). apply string_sound; auto.
    + rewrite (string_bad s B). cbn [try_new]. eexists _, _. split; [reflexivity|]. split; [auto|]. cbn [pexec variable]. splits; auto. exists s. auto.
  - cbn [try_new]. eexists _, _. split; [reflexivity|]. split; [apply all_fupd; auto|]. cbn [pexec variable]. split; [intros; apply prs_other; auto|].
    left. exists a. rewrite prs_same. auto.
  - refine (goes_new st (HRecip d a) _ _ _ Hw (c_recip _ _ _) (fun H => H) _). apply make_sound; apply Hw.
  - refine (goes_new st (HBin o d a b) _ _ _ Hw (c_bin _ _ _ _ _) (fun H => H) _). apply bin_sound; auto.
  - refine (goes_new st (HIntL o d a b) _ _ _ Hw (c_intl _ _ _ _ _) (fun H => H) _). apply intl_sound; auto.
  - refine (goes_new st (HIntR o d a b) _ _ _ Hw (c_intr _ _ _ _ _) (fun H => H) _). apply intr_sound; auto.
  - destruct (pow_sound (st a) n (Hw a) Ho) as [E|(e & X & P & Q)].
    + rewrite E. cbn [try_new]. eexists _, _. split; [reflexivity|]. split; [auto|]. cbn [pexec variable]. auto.
    + destruct (Z_le_gt_dec 0 (val n)) as [H|H].
      * refine (goes_new st (HPow d a n) _ _ _ Hw (c_pow _ _ _ _ _ X H) (fun H => H) _). apply P; auto.
      * refine (goes_new st (HPow d a n) _ _ _ Hw (c_pow_neg _ _ _ _ _ X ltac:(lia)) (fun H => H) _). apply Q; lia.
  - refine (goes_in_place st (HAssign o d b) _ _ _ Hw (c_assign _ _ _ _) I _). cbn [variable]. destruct (Nat.eqb_spec d b) as [->|N].
    + apply (assign_sound_nd o (st b) None); [auto|discriminate].
    + apply (assign_sound_nd o (st d) (Some (st b))); [auto|]. intros ? [= <-]. auto.
  - destruct (int_assign_sound o (st d) b (Hw d) Ho) as [(W & E & O & B & L)|H].
    + unfold try_in_place. rewrite E. eexists _, _. split; [reflexivity|]. split; [apply all_fupd; auto|]. cbn [pexec variable]. split; [intros; apply prs_other; auto|].
      right. split; [exact I|]. right. exists o, d, b. rewrite prs_same. unfold pr at 1. cbn [snd fst]. rewrite B. splits; auto.
    + refine (goes_in_place st (HIAssign o d b) _ _ _ Hw (c_iassign _ _ _ _) I _). right. exact H.
  - destruct (pow_assign_sound (st d) n (Hw d) Ho) as (e & X & P). exact (goes_in_place st (HPowAssign d n) _ _ _ Hw (c_pow_assign _ _ _ _ X) I P).
  - destruct (cmp_sound c (st a) (st b) (Hw a) (Hw b)) as (r & -> & Hr). cbn [bind]. eexists _, _. split; [reflexivity|]. split; [auto|]. cbn [pexec]. split; [auto|]. exists r. auto.
Qed.
Lemma program_goes p : forall st, all_wfrac st -> Forall int_operands p ->
  exists st' evs, nrun st p = Ok (st', evs) /\ all_wfrac st' /\ prun (prs st) p evs (prs st').
Proof.
  induction p as [|s p IH]; intros st Hw Ho; cbn [nrun].
  - exists st, []. splits; auto. constructor. auto.
  - inversion Ho as [|? ? H1 H2]; subst. destruct (call_goes st s Hw H1) as (st1 & ev & E & W1 & P1). rewrite E. cbn [bind fst].
    destruct (IH st1 W1 H2) as (st' & evs & E2 & W2 & P2). rewrite E2. cbn [bind fst snd]. exists st', (ev :: evs). splits; auto. econstructor; eauto.
Qed.

(** *** Against the build with assertions *)
Lemma int_assign_left o x a f : FIasg_nd o x a = (f, Ok tt) -> FIasg_left o x a = (f, Ok tt).
Proof.
  assert (G : forall s, fthen (set_top x (p <- op_mul_nd (bot x) a ;; addsub_assign_nd 3 s (top x) (Some p))) normalize_nd = (f, Ok tt) ->
    FI_sum_left (addsub_left 3 s) x a = (f, Ok tt)).
  { intros s. unfold FI_sum_left. destruct (op_mul_nd (bot x) a) as [p|?| | |]; cbn [bind]; try discriminate.
    rewrite <- addsub_left_nd. destruct (addsub_left 3 s (top x) (Some p)) as [l [[]|?| | |]]; unfold finish; cbn [bind fst snd]; try discriminate. auto. }
  destruct o; cbn [FIasg_left]; auto; [apply (G false)|apply (G true)].
Qed.
Lemma try_new_same st d m m' st' : (forall r, m = Ok r -> m' = Ok r) -> try_new st d m = Ok (st', Done) -> try_new st d m' = Ok (st', Done).
Proof. intros H. destruct m; try discriminate. rewrite (H a eq_refl). auto. Qed.
Lemma try_in_place_same st d p p' st' : (forall f, p = (f, Ok tt) -> p' = (f, Ok tt)) -> try_in_place st d p = Ok (st', Done) -> try_in_place st d p' = Ok (st', Done).
Proof. intros H. destruct p as [f [[]|?| | |]]; try discriminate. rewrite (H f eq_refl). auto. Qed.
Lemma call_same st s st' ev : cexec st s = Ok (st', ev) -> (forall e, ev <> Caught e) -> nexec st s = Ok (st', ev).
Proof.
  intros E N. destruct s as [i|c a b].
  - assert (D : ev = Done).
    { destruct i; cbn [cexec] in E; unfold try_in_place, try_new in E;
        try match type of E with match ?m with _ => _ end = _ => destruct m end; try discriminate; injection E as _ <-; try reflexivity; exfalso; eapply N; reflexivity. }
    subst ev. destruct i; cbn [cexec nexec] in *; auto.
    + revert E. apply try_new_same. intros r. apply (C121_same FAdd CEq (st d) (st d) a b [] (SpecFloat.S754_zero false) 0 r false).
    + revert E. apply try_new_same. intros r. apply (C121_same FAdd CEq (st d) (st d) one one s (SpecFloat.S754_zero false) 0 r false).
    + revert E. apply try_new_same. intros r. apply (C121_same FAdd CEq (st a) (st d) one one [] (SpecFloat.S754_zero false) 0 r false).
    + revert E. apply try_new_same. intros r. apply (C121_same o CEq (st a) (st b) one one [] (SpecFloat.S754_zero false) 0 r false).
    + revert E. apply try_new_same. intros r. apply (C121_same o CEq (st b) (st b) a one [] (SpecFloat.S754_zero false) 0 r false).
    + revert E. apply try_new_same. intros r. apply (C121_same o CEq (st a) (st a) b one [] (SpecFloat.S754_zero false) 0 r false).
    + revert E. apply try_new_same. intros r. apply (C121_same FAdd CEq (st a) (st a) n one [] (SpecFloat.S754_zero false) 0 r false).
    + revert E. apply try_in_place_same. intros f. apply (C121_same_in_place o (st d) _ one f).
    + revert E. apply try_in_place_same. intros f H. apply int_assign_left. revert H. apply (C121_same_in_place o (st d) None b f).
    + revert E. apply try_in_place_same. intros f. apply (C121_same_in_place FAdd (st d) None n f).
  - cbn [cexec nexec] in *. destruct (Fcmp c (st a) (st b)) as [r|?| | |] eqn:F; try discriminate.
    destruct (C121_same FAdd c (st a) (st b) one one [] (SpecFloat.S754_zero false) 0 (st a) r) as (_ & _ & _ & _ & _ & _ & _ & _ & H). rewrite (H F). exact E.
Qed.
(** *** What [lowest] says *)
Lemma lowest_value n d q : lowest n d q -> d <> 0 -> 0 < snd q /\ Z.gcd (fst q) (snd q) = 1 /\ n * snd q = fst q * d.
Proof.
  intros (G & P & s & Sg & E1 & E2) N.
  assert (Hs : s * s = 1) by (destruct Sg as [-> | ->]; reflexivity).
  assert (snd q <> 0) by (intros Z0; rewrite Z0 in E2; destruct Sg as [-> | ->]; lia).
  assert (Gq : Z.gcd n d = Z.gcd n d * Z.gcd (fst q) (snd q)).
  { rewrite <- (gcd_sign s n d Sg) at 1. rewrite E1, E2, Z.gcd_mul_mono_l_nonneg by apply Z.gcd_nonneg. reflexivity. }
  splits; [lia|nia|].
  assert (s * n * (Z.gcd n d * snd q) = Z.gcd n d * fst q * (s * d)) by (rewrite <- E1, <- E2; ring).
  destruct Sg as [-> | ->]; nia.
Qed.
Lemma lowest_unique n d q q' : lowest n d q -> lowest n d q' -> d <> 0 -> q = q'.
Proof.
  intros (G & P & s & Sg & E1 & E2) (_ & P' & s' & Sg' & E1' & E2') N. pose proof (Z.gcd_nonneg n d) as Pg.
  assert (Z.gcd n d * snd q = Z.gcd n d * snd q' /\ s = s') as [Eq ->] by (destruct Sg as [-> | ->], Sg' as [-> | ->]; nia).
  destruct q as [t b], q' as [t' b']. cbn [fst snd] in *. f_equal; nia.
Qed.
