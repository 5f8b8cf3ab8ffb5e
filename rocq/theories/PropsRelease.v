(** Property theorems about Int compiled without assertions (CMAKE_BUILD_TYPE=Release):
    C120. [val x] is the integer an Int denotes, [canonical x] its normal form. *)
From Coq Require Import ZifyBool.
From Verif Require Import Base IntModel IntSpec IntBasics IntAddSub IntMul IntDiv IntMod IntScale IntPowDefined PropsInt ReleaseModel ReleaseSpec ReleaseProofs ReleaseProofs2.
Local Open Scope list_scope.
Local Open Scope Z_scope.

Definition binary_nd (o : aop) : Int -> Int -> res Int :=
  match o with Add => op_add_nd | Sub => op_sub_nd | Mul => op_mul_nd | Div => op_div_nd | Mod => op_mod_nd | Pow => op_pow_nd end.
(** The object left behind and how the call ended *)
Definition assign_nd (o : aop) (x : Int) (other : option Int) : Int * res unit :=
  match o with
  | Add => in_place x (add_assign_nd x other) | Sub => in_place x (sub_assign_nd x other) | Mul => in_place x (mul_assign_nd x other)
  | Div => div_assign_nd x other | Mod => mod_assign_nd x other | Pow => pow_assign_nd x other
  end.

(** ** C120 *)
(** Whatever the operands, what is returned with assertions is returned without them. *)
Theorem C120_same : forall o x y other p r,
  (binary o x y = Ok r -> binary_nd o x y = Ok r) /\
  (assign o x other = Ok r -> assign_nd o x other = (r, Ok tt)) /\
  (times_power_ten x p = Ok r -> times_power_ten_nd x p = (r, Ok tt)).
Proof.
  intros o x y other p r. splits; [| |apply times_power_ten_keeps].
  - destruct o; cbn [binary binary_nd]; intros E; [apply op_add_keeps|apply op_sub_keeps|apply op_mul_keeps|apply op_div_keeps|apply op_mod_keeps|apply op_pow_keeps]; exact E.
  - destruct o; cbn [assign assign_nd]; intros E.
    + eapply in_place_keeps; [apply add_assign_keeps|exact E].
    + eapply in_place_keeps; [apply sub_assign_keeps|exact E].
    + eapply in_place_keeps; [apply mul_assign_keeps|exact E].
    + apply divide_keeps. exact E.
    + eapply in_place_keeps; [apply op_mod_keeps|exact E].
    + eapply in_place_keeps; [apply op_pow_keeps|exact E].
Qed.

(** A failed assertion becomes std::out_of_range, and nothing else changes. *)
Lemma finish_in_place x m : finish (in_place x m) = m.
Proof. destruct m; reflexivity. Qed.
Theorem C120_throws : forall o x y p, canonical x -> canonical y ->
  binary_nd o x y = released (binary o x y) /\
  finish (assign_nd o x (Some y)) = released (assign o x (Some y)) /\
  finish (assign_nd o x None) = released (assign o x None) /\
  (INT32_MIN < p <= INT32_MAX -> finish (times_power_ten_nd x p) = released (times_power_ten x p)).
Proof.
  intros o x y p Cx Cy. assert (Hk : forall (m m' : res Int) r, keeps m m' -> m = Ok r -> m' = released m) by (intros m m' r K E; rewrite E, (K r E); reflexivity).
  assert (Ha : forall other, canonical (rd x other) -> (forall z, other = Some z -> canonical z) -> finish (assign_nd o x other) = released (assign o x other)).
  { intros other Cr Co. destruct o; cbn [assign assign_nd]; rewrite ?finish_in_place.
    - destruct (addsub_assign_ok false x other) as (r & E & _); auto. eapply Hk; [apply add_assign_keeps|exact E].
    - destruct (addsub_assign_ok true x other) as (r & E & _); auto. eapply Hk; [apply sub_assign_keeps|exact E].
    - destruct (mul_assign_ok x other) as (r & E & _); auto. eapply Hk; [apply mul_assign_keeps|exact E].
    - apply op_div_released; auto.
    - unfold mod_assign_nd. rewrite finish_in_place. apply op_mod_released; auto.
    - unfold pow_assign_nd. rewrite finish_in_place. apply op_pow_released; auto. }
  splits; [|apply Ha; [exact Cy|intros z [= <-]; exact Cy]|apply Ha; [exact Cx|discriminate]|apply tpt_released; exact Cx].
  destruct o; cbn [binary binary_nd].
  - destruct (op_add_ok x y) as (r & E & _); auto. eapply Hk; [apply op_add_keeps|exact E].
  - destruct (op_sub_ok x y) as (r & E & _); auto. eapply Hk; [apply op_sub_keeps|exact E].
  - destruct (op_mul_ok x y) as (r & E & _); auto. eapply Hk; [apply op_mul_keeps|exact E].
  - apply op_div_released; auto.
  - apply op_mod_released; auto.
  - apply op_pow_released; auto.
Qed.

(** x /= y that stops has overwritten x: what is left are the digits of x below the one it
    stops at, under x's sign. So the value of x is always lost. *)
Theorem C120_left : forall x y, canonical x -> canonical y -> val y <> 0 -> ~ div_safe (Z.abs (val x)) (Z.abs (val y)) ->
  exists l, div_assign_nd x (Some y) = (l, Throw OutOfRange) /\ wf l /\ trimmed (bins l) /\ negative l = negative x /\
    left_of (Z.abs (val x)) (Z.abs (val y)) (Z.abs (val l)) /\ Z.abs (val l) < Z.abs (val x).
Proof.
  intros x y Cx Cy Hy Hd. assert (E : divide x y = Abort) by (apply divide_unsafe; auto).
  destruct (divide_nd_left x y ltac:(auto) ltac:(auto) ltac:(auto) E) as (l & E2 & W & T & N & L & H). exists l. rewrite !abs_val by auto. splits; auto.
Qed.
(** x /= x on one object *)
Theorem C120_left_self : forall x, canonical x -> val x <> 0 -> ~ div_safe (Z.abs (val x)) (Z.abs (val x)) ->
  exists l, div_assign_nd x None = (l, Throw OutOfRange) /\ wf l /\ trimmed (bins l) /\ negative l = negative x /\
    left_of (Z.abs (val x)) (Z.abs (val x)) (Z.abs (val l)) /\ Z.abs (val l) < Z.abs (val x).
Proof. intros x Cx. exact (C120_left x x Cx Cx). Qed.
(** The other compound assignments, and division by zero, leave x as it was when they throw. *)
Theorem C120_kept : forall o x other e l, canonical x -> (forall y, other = Some y -> canonical y) ->
  assign_nd o x other = (l, Throw e) -> o <> Div \/ e <> OutOfRange -> l = x.
Proof.
  intros o x other e l Cx Co E H. assert (Hp : forall m : res Int, in_place x m = (l, Throw e) -> l = x) by (intros [?|?| | |] [= <- ?]; reflexivity).
  assert (Cr : canonical (rd x other)) by (destruct other; cbn; auto).
  destruct o; cbn [assign_nd] in E; try (eapply Hp; exact E).
  destruct H as [H|H]; [congruence|]. unfold div_assign_nd in E.
  destruct (divide_gen x (rd x other) ltac:(auto) ltac:(auto)) as [[Hv Hd]|[(_ & _ & Hd)|(_ & _ & [(_ & Hd)|(_ & r & Hd & _)])]].
  - unfold divide_nd in E. rewrite equals_int32_0 in E by auto. pose proof (abs_val (rd x other) ltac:(auto)). replace (aval (rd x other) =? 0) with true in E by lia. congruence.
  - rewrite (divide_keeps _ _ _ Hd) in E. discriminate.
  - destruct (divide_nd_stuck x (rd x other) ltac:(auto) ltac:(auto) Hd) as (j & _ & E2). rewrite E2 in E. congruence.
  - rewrite (divide_keeps _ _ _ Hd) in E. discriminate.
Qed.
(** So x /= y does not keep x when it throws, and does not even leave an Int in normal form. *)
Theorem C120_left_refuted : exists x y l, canonical x /\ canonical y /\ div_assign_nd x (Some y) = (l, Throw OutOfRange) /\
  l <> x /\ ~ canonical l /\ val l = 0 /\ negative l = true.
Proof.
  exists (mkInt [0; 0; 1] true), (i 7000000000), (mkInt [0] true). splits; [ex|ex|vm_compute; reflexivity|discriminate| |reflexivity|reflexivity].
  intros (_ & _ & H). apply H; reflexivity.
Qed.

(** Zeros left in front by *= no longer stop a subtraction (with assertions they do,
    C08_C09_any): it is exact, or std::out_of_range where the smaller operand has more
    bins than the larger one needs. *)
Theorem C120_redundant_sub : forall x y, wf x -> wf y ->
  (negative x <> negative y -> op_sub_nd x y = op_sub x y) /\
  (negative x = negative y -> fits (size (if Z.abs (val x) >? Z.abs (val y) then y else x)) (Z.max (Z.abs (val x)) (Z.abs (val y))) ->
     exists r, op_sub_nd x y = Ok r /\ canonical r /\ val r = val x - val y) /\
  (negative x = negative y -> ~ fits (size (if Z.abs (val x) >? Z.abs (val y) then y else x)) (Z.max (Z.abs (val x)) (Z.abs (val y))) ->
     op_sub_nd x y = Throw OutOfRange).
Proof. intros x y Hx Hy. rewrite !abs_val by assumption. exact (op_sub_nd_gen x y Hx Hy). Qed.
Theorem C120_redundant_add : forall x y, wf x -> wf y ->
  (negative x = negative y -> op_add_nd x y = op_add x y) /\
  (negative x <> negative y -> fits (size (if Z.abs (val x) >? Z.abs (val y) then y else x)) (Z.max (Z.abs (val x)) (Z.abs (val y))) ->
     exists r, op_add_nd x y = Ok r /\ canonical r /\ val r = val x + val y) /\
  (negative x <> negative y -> ~ fits (size (if Z.abs (val x) >? Z.abs (val y) then y else x)) (Z.max (Z.abs (val x)) (Z.abs (val y))) ->
     op_add_nd x y = Throw OutOfRange).
Proof. intros x y Hx Hy. rewrite !abs_val by assumption. exact (op_add_nd_gen x y Hx Hy). Qed.

Example C120_ex : div_assign_nd (mkInt [5; 0; 7; 0; 1] true) (Some (i 20)) = (mkInt [5; 0; 7] true, Throw OutOfRange) /\
  div_assign_nd (mkInt [5; 6; 0; 0; 1] false) (Some (i 20)) = (mkInt [5; 6] false, Throw OutOfRange) /\
  div_assign_nd (mkInt [5; 0; 1] false) None = (i 5, Throw OutOfRange) /\
  div_assign_nd big (Some (i 3)) = (mkInt [2; 0; 41152263; 14] true, Ok tt) /\
  op_mod_nd (mkInt [5; 0; 1] false) (i 7000000000) = Throw OutOfRange /\
  assign_nd Mod (mkInt [5; 0; 1] false) (Some (i 7000000000)) = (mkInt [5; 0; 1] false, Throw OutOfRange) /\
  op_pow_nd (i 2) (mkInt [73741824; 1] false) = Throw OutOfRange /\
  times_power_ten_nd (mkInt [8; 0; 10] false) (-2) = (i 0, Throw OutOfRange).
Proof. vm_compute. auto 12. Qed.
Example C120_redundant_ex : mul_assign (i 0) (Some ten9) = Ok (mkInt [0; 0] false) /\
  op_sub ten9 (mkInt [0; 0] false) = Abort /\ op_sub_nd ten9 (mkInt [0; 0] false) = Ok ten9 /\
  op_sub_nd (i 3) (mkInt [0; 0] false) = Throw OutOfRange /\ op_add_nd (i (-3)) (mkInt [0; 0] false) = Throw OutOfRange.
Proof. vm_compute. auto. Qed.
Example C120_left_ex : left_of (10 ^ 36 + 7 * 10 ^ 18 + 5) 20 (7 * 10 ^ 18 + 5).
Proof.
  exists 3. splits; [|intros j (H1 & H2 & _)|reflexivity].
  - unfold stops_at. splits; vm_compute; congruence.
  - destruct (Z_le_gt_dec j 3) as [Hj|Hj]; [exact Hj|exfalso].
    assert (H : (10 ^ 9) ^ 5 <= (10 ^ 9) ^ (j + 1)) by (apply Z.pow_le_mono_r; lia).
    assert (10 ^ 36 + 7 * 10 ^ 18 + 5 < (10 ^ 9) ^ 5) by (vm_compute; reflexivity). lia.
Qed.
Print Assumptions C120_same.
Print Assumptions C120_throws.
Print Assumptions C120_left.
Print Assumptions C120_left_self.
Print Assumptions C120_kept.
Print Assumptions C120_left_refuted.
Print Assumptions C120_redundant_sub.
Print Assumptions C120_redundant_add.
