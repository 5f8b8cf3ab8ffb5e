(** times_power_ten. *)
From Verif Require Import Base IntModel IntSpec IntBasics IntAddSub IntMul IntDiv IntMod.
From Coq Require Import ZifyBool.

Lemma ten_ok : exists t, Int_of_int64 10 0 = Ok t /\ canonical t /\ val t = 10 /\ negative t = false /\ size t = 1%nat.
Proof. exists (mkInt [10] false). splits; try reflexivity. apply canonicalb_spec. reflexivity. Qed.

Lemma iter_mul10_ok n : forall x, wf x -> exists r, iter_mul10 n x = Ok r /\ wf r /\ val r = val x * 10 ^ Z.of_nat n /\
  negative r = negative x /\ (trimmed (bins x) -> trimmed (bins r)).
Proof.
  induction n as [|n IH]; intros x Hx.
  - exists x. splits; auto. rewrite Z.pow_0_r. lia.
  - destruct ten_ok as [t [Et [Ct [Vt [Nt St]]]]]. cbn [iter_mul10]. rewrite Et. cbn [bind].
    destruct (mul_assign_ok x (Some t) Hx) as [r [E [W [V [N [T Z]]]]]]; [intros ? [= <-]; auto|].
    cbn [rd] in *. rewrite E. cbn [bind].
    destruct (IH r W) as [r' [E' [W' [V' [N' T']]]]]. exists r'. splits; auto.
    + rewrite V', V, Vt, Nat2Z.inj_succ, Z.pow_succ_r by lia. lia.
    + rewrite N', N, Nt. destruct (negative x); reflexivity.
Qed.

Lemma tpt_pos x p : wf x -> 0 < p -> exists r, times_power_ten x p = Ok r /\ wf r /\ val r = val x * 10 ^ p /\
   negative r = negative x /\ (trimmed (bins x) -> val x <> 0 \/ p < 9 -> trimmed (bins r)).
Proof.
  intros Hx Hp. unfold times_power_ten. replace (p >? 0) with true by lia. unfold BIN_WIDTH.
  rewrite Z.quot_div_nonneg, Z.rem_mod_nonneg by lia.
  pose proof (Z.mod_pos_bound p 9 ltac:(lia)) as M. pose proof (Z.div_mod p 9 ltac:(lia)) as D.
  assert (0 <= p / 9) by (apply Z.div_pos; lia).
  destruct (iter_mul10_ok (Z.to_nat (p mod 9)) x Hx) as [r [E [W [V [N T]]]]].
  rewrite E. cbn [bind]. fold (Int_shifted r (Z.to_nat (p / 9))).
  destruct (Int_shifted_spec r (Z.to_nat (p / 9)) W) as [Ws [Vs [Ts _]]].
  eexists; split; [reflexivity|]. splits; auto.
  - rewrite Vs, V. unfold pw. rewrite !Z2Nat.id by lia. rewrite <- Z.mul_assoc. f_equal.
    change B with (10 ^ 9). rewrite <- Z.pow_mul_r, <- Z.pow_add_r by lia. f_equal. lia.
  - intros Tx [Hn|Hn].
    + apply Ts; auto. pose proof (abs_val r W). pose proof (Z.pow_pos_nonneg 10 (Z.of_nat (Z.to_nat (p mod 9))) ltac:(lia) ltac:(lia)).
      assert (val r <> 0) by (rewrite V; nia). lia.
    + assert (p / 9 = 0) by (apply Z.div_small; lia). rewrite H0. cbn. apply T, Tx.
Qed.

Lemma pow10_quot a i : 0 <= i -> 0 <= a -> a / 10 ^ i / 10 = a / 10 ^ (i + 1).
Proof. intros. rewrite Z.div_div by (try lia; apply Z.pow_pos_nonneg; lia). f_equal. rewrite Z.pow_add_r by lia. reflexivity. Qed.

Lemma quot_quot_10 v i : 0 <= i -> Z.quot (Z.quot v (10 ^ i)) 10 = Z.quot v (10 ^ (i + 1)).
Proof. intros. rewrite Z.quot_quot by (try lia; pose proof (Z.pow_pos_nonneg 10 i ltac:(lia) ltac:(lia)); lia). f_equal. rewrite Z.pow_add_r by lia. reflexivity. Qed.

Lemma abs_quot a b : 0 < b -> Z.abs (Z.quot a b) = Z.abs a / b.
Proof.
  intros H. rewrite <- (Z.quot_div_nonneg (Z.abs a) b) by lia. destruct (Z_lt_le_dec a 0).
  - rewrite (Z.abs_neq a) by lia. rewrite Z.quot_opp_l by lia. assert (0 <= Z.quot (- a) b) by (apply Z.quot_pos; lia).
    rewrite Z.quot_opp_l in H0 by lia. lia.
  - rewrite (Z.abs_eq a) by lia. assert (0 <= Z.quot a b) by (apply Z.quot_pos; lia). lia.
Qed.

Lemma iter_div10_ok n : forall x, canonical x ->
  (forall i, 0 <= i < Z.of_nat n -> div_safe (Z.abs (val x) / 10 ^ i) 10) ->
  exists r, iter_div10 n x = Ok r /\ canonical r /\ val r = Z.quot (val x) (10 ^ Z.of_nat n).
Proof.
  induction n as [|n IH]; intros x Cx S.
  - exists x. splits; auto. change (10 ^ Z.of_nat 0) with 1. rewrite Z.quot_1_r. reflexivity.
  - destruct ten_ok as [t [Et [Ct [Vt _]]]]. cbn [iter_div10]. rewrite Et. cbn [bind]. unfold div_assign. cbn [rd].
    destruct (divide_safe x t ltac:(auto) ltac:(auto) ltac:(auto)) as [r [E [C V]]]; [lia| |].
    { rewrite Vt. specialize (S 0 ltac:(lia)). rewrite Z.pow_0_r, Z.div_1_r in S. exact S. }
    rewrite E. cbn [bind]. rewrite Vt in V.
    destruct (IH r C) as [r' [E' [C' V']]].
    { intros i Hi. rewrite V, abs_quot by lia. rewrite Z.div_div by (try lia; apply Z.pow_pos_nonneg; lia).
      rewrite <- Z.pow_succ_r by lia. apply S. lia. }
    exists r'. splits; auto. rewrite V', V, Z.quot_quot by (try lia; pose proof (Z.pow_pos_nonneg 10 (Z.of_nat n) ltac:(lia) ltac:(lia)); lia).
    f_equal. rewrite Nat2Z.inj_succ, Z.pow_succ_r by lia. lia.
Qed.

Lemma iter_div10_abort n : forall x, canonical x ->
  (exists i, 0 <= i < Z.of_nat n /\ ~ div_safe (Z.abs (val x) / 10 ^ i) 10) -> iter_div10 n x = Abort.
Proof.
  induction n as [|n IH]; intros x Cx [i [Hi S]].
  - lia.
  - destruct ten_ok as [t [Et [Ct [Vt _]]]]. cbn [iter_div10]. rewrite Et. cbn [bind]. unfold div_assign. cbn [rd].
    destruct (div_safe_dec (Z.abs (val x)) 10 ltac:(lia)) as [D|D].
    + destruct (divide_safe x t ltac:(auto) ltac:(auto) ltac:(auto)) as [r [E [C V]]]; [lia|rewrite Vt; exact D|].
      rewrite E. cbn [bind]. rewrite Vt in V. apply IH; auto.
      destruct (Z.eq_dec i 0) as [->|]; [rewrite Z.pow_0_r, Z.div_1_r in S; contradiction|].
      exists (i - 1). split; [lia|]. rewrite V, abs_quot, Z.div_div by (try lia; apply Z.pow_pos_nonneg; lia).
      rewrite <- Z.pow_succ_r by lia. replace (Z.succ (i - 1)) with i by lia. exact S.
    + rewrite divide_unsafe; auto; [lia|]. rewrite Vt. exact D.
Qed.

Lemma bins_val_skipn q l : Forall digit_ok l -> bins_val (skipn q l) = bins_val l / pw q.
Proof.
  intros H. destruct (le_lt_dec q (length l)) as [L|L].
  - pose proof (bins_val_bound _ (Forall_firstn_ _ q _ H)) as Bf.
    rewrite <- (firstn_skipn q l) at 2. rewrite bins_val_app. rewrite firstn_length_le in * by assumption.
    rewrite Z.add_comm, Z.mul_comm, Z.div_add_l by lia. rewrite (Z.div_small (bins_val (firstn q l))) by lia. lia.
  - rewrite skipn_all2 by lia. cbn. pose proof (bins_val_bound l H). pose proof (pw_le (length l) q ltac:(lia)).
    rewrite Z.div_small; lia.
Qed.

Lemma skipn_canonical x q : canonical x -> skipn q (bins x) <> [] -> canonical (mkInt (skipn q (bins x)) (negative x)).
Proof.
  intros Cx H. assert (Hd : Forall digit_ok (bins x)) by apply Cx.
  destruct (Nat.eq_dec q 0) as [->|Hq]; [cbn; destruct x; exact Cx|].
  assert (L : (length (skipn q (bins x)) > 0)%nat) by (destruct (skipn q (bins x)); [congruence|cbn; lia]).
  rewrite skipn_length in L.
  assert (LN : last (skipn q (bins x)) 0 <> 0).
  { rewrite <- (last_app_ne (firstn q (bins x))) by assumption. rewrite firstn_skipn.
    apply (canonical_trimmed x Cx). lia. }
  apply mk_canonical.
  - apply Forall_skipn_; assumption.
  - apply trimmed_last_nz; assumption.
  - intros _. rewrite bins_val_last by assumption.
    pose proof (bins_val_nonneg _ (Forall_removelast _ _ (Forall_skipn_ _ q _ Hd))).
    pose proof (Forall_last _ H (Forall_skipn_ _ q _ Hd)) as Dl. unfold digit_ok in Dl.
    pose proof (pw_pos (length (removelast (skipn q (bins x))))). nia.
Qed.

(* the value left after dropping q bins *)
Lemma skipn_val x q : canonical x -> val (mkInt (skipn q (bins x)) (negative x)) = Z.quot (val x) (pw q).
Proof.
  intros Cx. unfold val. cbn [bins negative]. rewrite bins_val_skipn by apply Cx.
  pose proof (bins_val_nonneg (bins x) ltac:(apply Cx)). pose proof (pw_pos q).
  destruct (negative x); rewrite ?Z.quot_opp_l, Z.quot_div_nonneg by lia; reflexivity.
Qed.

(** division by a power of ten succeeds step by step *)
Definition scale_down_safe (a n : Z) : Prop :=
  forall i, 0 <= i < n mod 9 -> div_safe (a / 10 ^ (9 * (n / 9) + i)) 10.

Lemma tpt_neg x n : canonical x -> 0 < n <= INT32_MAX ->
  (scale_down_safe (Z.abs (val x)) n ->
     exists r, times_power_ten x (- n) = Ok r /\ canonical r /\ val r = Z.quot (val x) (10 ^ n)) /\
  ((exists i, 0 <= i < n mod 9 /\ ~ div_safe (Z.abs (val x) / 10 ^ (9 * (n / 9) + i)) 10) ->
     times_power_ten x (- n) = Abort).
Proof.
  intros Cx Hn. unfold times_power_ten. replace (- n >? 0) with false by lia. replace (- n <? 0) with true by lia.
  rewrite Z.opp_involutive. rewrite i32_ok by (unfold INT32_MIN, INT32_MAX in *; lia). cbn [bind]. unfold BIN_WIDTH.
  rewrite Z.quot_div_nonneg, Z.rem_mod_nonneg by lia.
  pose proof (Z.mod_pos_bound n 9 ltac:(lia)) as M. pose proof (Z.div_mod n 9 ltac:(lia)) as D.
  assert (Hq : 0 <= n / 9) by (apply Z.div_pos; lia).
  set (q := Z.to_nat (n / 9)).
  assert (Eq : pw q = 10 ^ (9 * (n / 9))).
  { unfold pw, q. rewrite Z2Nat.id by lia. change B with (10 ^ 9). rewrite <- Z.pow_mul_r by lia. reflexivity. }
  assert (Vabs : forall i, 0 <= i -> Z.abs (Z.quot (val x) (pw q)) / 10 ^ i = Z.abs (val x) / 10 ^ (9 * (n / 9) + i)).
  { intros i Hi. rewrite abs_quot by apply pw_pos. pose proof (pw_pos q).
    rewrite Z.div_div by (try lia; apply Z.pow_pos_nonneg; lia). f_equal. rewrite Eq, <- Z.pow_add_r by lia. reflexivity. }
  assert (Vfin : Z.quot (Z.quot (val x) (pw q)) (10 ^ (n mod 9)) = Z.quot (val x) (10 ^ n)).
  { pose proof (pw_pos q). pose proof (Z.pow_pos_nonneg 10 (n mod 9) ltac:(lia) ltac:(lia)).
    rewrite Z.quot_quot by lia. f_equal. rewrite Eq, <- Z.pow_add_r by lia. f_equal. lia. }
  pose proof (skipn_val x q Cx) as Vs.
  destruct (skipn q (bins x)) as [|b0 l0] eqn:Es.
  - (* nothing left: zero *)
    assert (V0 : Z.quot (val x) (pw q) = 0).
    { rewrite <- Vs. unfold val. cbn. destruct (negative x); reflexivity. }
    split.
    + intros _. exists (mkInt [0] false). splits; [reflexivity|apply canonical_zero|].
      rewrite <- Vfin, V0. rewrite Z.quot_0_l; [reflexivity|]. pose proof (Z.pow_pos_nonneg 10 (n mod 9) ltac:(lia) ltac:(lia)). lia.
    + intros [i [Hi S]]. exfalso. apply S. left. rewrite <- Vabs, V0 by lia. cbn [Z.abs].
      rewrite Z.div_0_l; [lia|]. pose proof (Z.pow_pos_nonneg 10 i ltac:(lia) ltac:(lia)). lia.
  - pose proof (skipn_canonical x q Cx) as Ck. rewrite Es in Ck. specialize (Ck ltac:(discriminate)).
    split.
    + intros S. destruct (iter_div10_ok (Z.to_nat (n mod 9)) _ Ck) as [r [E [C V]]].
      { intros i Hi. rewrite Z2Nat.id in Hi by lia. rewrite Vs, Vabs by lia. apply S. lia. }
      exists r. splits; auto. rewrite V, Vs, Z2Nat.id by lia. exact Vfin.
    + intros [i [Hi S]]. apply iter_div10_abort; auto. exists i. rewrite Z2Nat.id by lia. split; [lia|].
      rewrite Vs, Vabs by lia. exact S.
Qed.

Lemma tpt_0 x : times_power_ten x 0 = Ok x.
Proof. reflexivity. Qed.

(** any dividend below 10^18 is safe *)
Lemma div_safe_small a b : a < B ^ 2 -> div_safe a b.
Proof.
  intros H. right. intros i I1 I2 _ _. pose proof (Z.pow_le_mono_r B 2 (i + 1) ltac:(lia) ltac:(lia)). lia.
Qed.
