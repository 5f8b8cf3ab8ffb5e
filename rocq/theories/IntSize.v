(** How large results are and how many rounds the loops take. *)
From Coq Require Import ZifyBool.
From Verif Require Import Base IntModel IntSpec IntBasics IntAddSub IntMul IntDiv IntMod IntPowDefined FracModel FracProofs.

(** *** Sizes *)
Lemma size_window x : canonical x -> val x <> 0 -> 10 ^ (9 * (Z.of_nat (size x) - 1)) <= Z.abs (val x) < 10 ^ (9 * Z.of_nat (size x)).
Proof.
  intros C N. destruct (canonical_wf _ C) as [W D]. pose proof (bins_val_bound (bins x) D) as U. fold (aval x) in U.
  rewrite (abs_val x (canonical_wf _ C)). unfold size.
  assert (1 <= Z.of_nat (length (bins x))) by (destruct (bins x); [congruence|cbn; lia]).
  rewrite !Z.pow_mul_r by lia. change (10 ^ 9) with B.
  unfold pw in U. split; [|lia].
  assert (P : 0 < aval x) by (pose proof (abs_val x (canonical_wf _ C)); lia).
  destruct (Nat.eq_dec (length (bins x)) 1) as [E|E].
  - rewrite E. change (Z.of_nat 1 - 1) with 0. change (B ^ 0) with 1. lia.
  - assert (length (bins x) <> 0)%nat by (destruct (bins x); [congruence|discriminate]).
    pose proof (trimmed_lower (bins x) D ltac:(apply C) ltac:(lia)) as L. unfold pw in L. fold (aval x) in L.
    replace (Z.of_nat (length (bins x)) - 1) with (Z.of_nat (length (bins x) - 1)) by lia. exact L.
Qed.
Lemma bins_pos x : canonical x -> 1 <= Z.of_nat (size x).
Proof. intros [[W _] _]. unfold size. destruct (bins x); [congruence|cbn; lia]. Qed.
Lemma size_zero x : canonical x -> val x = 0 -> size x = 1%nat.
Proof.
  intros C V. destruct (canonical_wf _ C) as [W D]. destruct (Nat.eq_dec (size x) 1) as [|E]; auto. exfalso.
  pose proof (bins_pos x C). unfold size in *.
  pose proof (trimmed_lower (bins x) D ltac:(apply C) ltac:(lia)) as L. fold (aval x) in L.
  pose proof (abs_val x (canonical_wf _ C)). pose proof (pw_pos (length (bins x) - 1)). lia.
Qed.
(** A number below 10^(9n) has at most n bins; one of at least 10^(9n) more than n. *)
Lemma size_le x n : canonical x -> 1 <= n -> Z.abs (val x) < 10 ^ (9 * n) -> Z.of_nat (size x) <= n.
Proof.
  intros C P V. destruct (Z.eq_dec (val x) 0) as [E|E]; [rewrite (size_zero x C E); lia|].
  pose proof (size_window x C E) as [L _].
  assert (10 ^ (9 * (Z.of_nat (size x) - 1)) < 10 ^ (9 * n)) as H by lia.
  apply Z.pow_lt_mono_r_iff in H; lia.
Qed.
Lemma size_gt x n : canonical x -> 10 ^ (9 * n) <= Z.abs (val x) -> n < Z.of_nat (size x).
Proof.
  intros C V. pose proof (bins_pos x C). destruct (Z_lt_le_dec n 1) as [|P]; [lia|].
  assert (0 < 10 ^ (9 * n)) by (apply Z.pow_pos_nonneg; lia).
  pose proof (size_window x C ltac:(lia)) as [_ L].
  assert (10 ^ (9 * n) < 10 ^ (9 * Z.of_nat (size x))) as H1 by lia.
  apply Z.pow_lt_mono_r_iff in H1; lia.
Qed.
Lemma size_bound x : canonical x -> Z.abs (val x) < 10 ^ (9 * Z.of_nat (size x)).
Proof.
  intros C. destruct (Z.eq_dec (val x) 0) as [E|E]; [|apply (size_window x C E)].
  rewrite E. change (Z.abs 0) with 0. apply Z.pow_pos_nonneg; lia.
Qed.

Lemma pow_add_pos a b : 0 <= a -> 0 <= b -> 10 ^ (9 * a) * 10 ^ (9 * b) = 10 ^ (9 * (a + b)).
Proof. intros. rewrite <- Z.pow_add_r by lia. f_equal. lia. Qed.

Lemma add_size x y r : canonical x -> canonical y -> canonical r -> Z.abs (val r) <= Z.abs (val x) + Z.abs (val y) ->
  Z.of_nat (size r) <= Z.max (Z.of_nat (size x)) (Z.of_nat (size y)) + 1.
Proof.
  intros Cx Cy Cr V. set (m := Z.max (Z.of_nat (size x)) (Z.of_nat (size y))).
  pose proof (size_bound x Cx). pose proof (size_bound y Cy). pose proof (bins_pos x Cx).
  assert (10 ^ (9 * Z.of_nat (size x)) <= 10 ^ (9 * m)) by (apply Z.pow_le_mono_r; lia).
  assert (10 ^ (9 * Z.of_nat (size y)) <= 10 ^ (9 * m)) by (apply Z.pow_le_mono_r; lia).
  apply size_le; auto; [lia|]. rewrite <- (pow_add_pos m 1) by lia. change (10 ^ (9 * 1)) with 1000000000. lia.
Qed.
Lemma mul_size x y r : canonical x -> canonical y -> canonical r -> val x <> 0 -> val y <> 0 -> val r = val x * val y ->
  Z.of_nat (size x) + Z.of_nat (size y) - 1 <= Z.of_nat (size r) <= Z.of_nat (size x) + Z.of_nat (size y).
Proof.
  intros Cx Cy Cr Nx Ny V. pose proof (size_window x Cx Nx). pose proof (size_window y Cy Ny).
  pose proof (bins_pos x Cx). pose proof (bins_pos y Cy).
  assert (Va : Z.abs (val r) = Z.abs (val x) * Z.abs (val y)) by (rewrite V; apply Z.abs_mul).
  split.
  - enough (Z.of_nat (size x) - 1 + (Z.of_nat (size y) - 1) < Z.of_nat (size r)) by lia.
    apply size_gt; auto. rewrite <- pow_add_pos, Va by lia. apply Z.mul_le_mono_nonneg; try lia; apply Z.pow_nonneg; lia.
  - apply size_le; auto; [lia|]. rewrite <- pow_add_pos, Va by lia. apply Z.mul_lt_mono_nonneg; lia.
Qed.
Lemma div_size x y r : canonical x -> canonical y -> canonical r -> val y <> 0 -> Z.abs (val y) <= Z.abs (val x) ->
  val r = Z.quot (val x) (val y) ->
  Z.of_nat (size x) - Z.of_nat (size y) <= Z.of_nat (size r) <= Z.of_nat (size x) - Z.of_nat (size y) + 1.
Proof.
  intros Cx Cy Cr Ny Le V. pose proof (size_window x Cx ltac:(lia)). pose proof (size_window y Cy Ny).
  pose proof (bins_pos x Cx). pose proof (bins_pos y Cy). pose proof (bins_pos r Cr).
  assert (Va : Z.abs (val r) = Z.abs (val x) / Z.abs (val y)).
  { rewrite V, <- Z.quot_abs by lia. apply Z.quot_div_nonneg; lia. }
  assert (S : Z.of_nat (size y) <= Z.of_nat (size x)).
  { apply size_le; auto. lia. }
  pose proof (Z.div_mod (Z.abs (val x)) (Z.abs (val y)) ltac:(lia)).
  pose proof (Z.mod_pos_bound (Z.abs (val x)) (Z.abs (val y)) ltac:(lia)).
  split.
  - destruct (Z.eq_dec (Z.of_nat (size x)) (Z.of_nat (size y))) as [E|E]; [lia|].
    enough (Z.of_nat (size x) - Z.of_nat (size y) - 1 < Z.of_nat (size r)) by lia.
    apply size_gt; auto. rewrite Va. apply Z.div_le_lower_bound; [lia|].
    assert (10 ^ (9 * Z.of_nat (size y)) * 10 ^ (9 * (Z.of_nat (size x) - Z.of_nat (size y) - 1)) = 10 ^ (9 * (Z.of_nat (size x) - 1))).
    { rewrite pow_add_pos by lia. f_equal. lia. }
    eapply Z.le_trans; [|apply H]. rewrite <- H6. apply Z.mul_le_mono_nonneg_r; [apply Z.pow_nonneg|]; lia.
  - apply size_le; auto; [lia|]. rewrite Va. apply Z.div_lt_upper_bound; [lia|].
    assert (10 ^ (9 * (Z.of_nat (size y) - 1)) * 10 ^ (9 * (Z.of_nat (size x) - Z.of_nat (size y) + 1)) = 10 ^ (9 * Z.of_nat (size x))).
    { rewrite pow_add_pos by lia. f_equal. lia. }
    eapply Z.lt_le_trans; [apply H|]. rewrite <- H6. apply Z.mul_le_mono_nonneg_r; [apply Z.pow_nonneg|]; lia.
Qed.
Lemma mod_size y r : canonical y -> canonical r -> val y <> 0 -> Z.abs (val r) < Z.abs (val y) -> Z.of_nat (size r) <= Z.of_nat (size y).
Proof. intros Cy Cr N V. apply size_le; auto using bins_pos. pose proof (size_bound y Cy). lia. Qed.
Lemma pow_size x r e : canonical x -> canonical r -> 0 < e -> val r = val x ^ e -> Z.of_nat (size r) <= e * Z.of_nat (size x).
Proof.
  intros Cx Cr P V. pose proof (bins_pos x Cx). apply size_le; auto; [nia|].
  rewrite V, Z.abs_pow. replace (9 * (e * Z.of_nat (size x))) with (9 * Z.of_nat (size x) * e) by lia. rewrite Z.pow_mul_r by lia.
  pose proof (size_bound x Cx). apply Z.pow_lt_mono_l; lia.
Qed.

(** *** Rounds of Euclid's algorithm *)
Fixpoint fib (n : nat) : Z := match n with O => 0 | S m => match m with O => 1 | S k => fib m + fib k end end.
Lemma fib_SS n : fib (S (S n)) = fib (S n) + fib n. Proof. reflexivity. Qed.
Lemma fib_nonneg n : 0 <= fib n /\ 0 < fib (S n).
Proof. induction n as [|n [H1 H2]]; [cbn; lia|]. split; [lia|]. rewrite fib_SS. lia. Qed.
Lemma fib_mono n : fib n <= fib (S n).
Proof. destruct n; [cbn; lia|]. rewrite fib_SS. pose proof (fib_nonneg n). lia. Qed.
Lemma fib_tens k : 10 ^ Z.of_nat k <= fib (5 * k + 2).
Proof.
  induction k as [|k IH]; [cbn; lia|].
  rewrite Nat2Z.inj_succ, Z.pow_succ_r by lia.
  replace (5 * S k + 2)%nat with (S (S (S (S (S (5 * k + 2)))))) by lia.
  replace (5 * k + 2)%nat with (S (S (5 * k))) in * by lia. rewrite !fib_SS in *.
  pose proof (fib_nonneg (5 * k)). pose proof (fib_mono (5 * k)). lia.
Qed.

Lemma gcd_loop_more n : forall a b m, gcd_loop n a b <> OutOfFuel -> gcd_loop (n + m) a b = gcd_loop n a b.
Proof.
  induction n as [|n IH]; intros a b m H; [cbn in H; congruence|].
  cbn [Nat.add gcd_loop] in *. destruct (equals_int32 b 0) as [[]| | | |]; cbn [bind] in *; auto.
  destruct (op_mod a b); cbn [bind] in *; auto.
Qed.
Lemma gcd_loop_lame : forall n a b, okrep a -> okrep b -> 0 <= val b <= val a ->
  (val b < fib (S (S n)) \/ val b < val a < fib (S (S (S n)))) -> gcd_loop (S n) a b <> OutOfFuel.
Proof.
  induction n as [|n IH]; intros a b Ha Hb Hv Hf.
  - cbn [fib] in Hf. change (0 + 1) with 1 in Hf. assert (Vb : val b = 0) by lia. cbn [gcd_loop]. rewrite equals_int32_0 by auto. cbn [bind].
    rewrite (val_nonneg_abs b) by (auto; lia). rewrite Vb. cbn. discriminate.
  - remember (S n) as n' eqn:En. cbn [gcd_loop]. subst n'. rewrite equals_int32_0 by auto. cbn [bind].
    rewrite (val_nonneg_abs b) by (auto; lia). destruct (Z.eqb_spec (val b) 0) as [|N]; [discriminate|].
    assert (Tb : trimmed (bins b)). { apply Hb. pose proof (val_nonneg_abs b (okrep_wf _ Hb) ltac:(lia)). lia. }
    assert (Ta : trimmed (bins a)). { apply Ha. pose proof (val_nonneg_abs a (okrep_wf _ Ha) ltac:(lia)). lia. }
    destruct (div_safe_dec (val a) (val b)) as [D|D]; [lia| |].
    + destruct (op_mod_ok a b) as [r [Er [Cr Vr]]]; auto; [rewrite !Z.abs_eq by lia; exact D|].
      rewrite Er. cbn [bind].
      pose proof (Z.mod_pos_bound (val a) (val b) ltac:(lia)). pose proof (Z.div_mod (val a) (val b) ltac:(lia)).
      apply IH; auto; [lia|]. rewrite Vr.
      destruct (Z_lt_le_dec (val b) (fib (S (S (S n))))) as [L|L]; [right; lia|].
      left. rewrite (fib_SS (S (S n))) in Hf.
      assert (1 <= val a / val b) by (apply Z.div_le_lower_bound; lia). nia.
    + rewrite op_mod_unsafe; auto; [cbn; discriminate|rewrite !Z.abs_eq by lia; exact D].
Qed.
Lemma gcd_rounds a b k : okrep a -> okrep b -> 0 <= val b <= val a -> val b < 10 ^ Z.of_nat k ->
  gcd_loop (5 * k + 1) a b = nochecks_gcd a b.
Proof.
  intros Ha Hb Hv Hk.
  assert (N : forall m, val b < 10 ^ Z.of_nat m -> gcd_loop (5 * m + 1) a b <> OutOfFuel).
  { intros m Hm. replace (5 * m + 1)%nat with (S (5 * m)) by lia. apply gcd_loop_lame; auto. left.
    pose proof (fib_tens m) as F. replace (5 * m + 2)%nat with (S (S (5 * m))) in F by lia. lia. }
  unfold nochecks_gcd. destruct (Nat.le_ge_cases (5 * k + 1) (gcd_fuel b)) as [L|L].
  - replace (gcd_fuel b) with (5 * k + 1 + (gcd_fuel b - (5 * k + 1)))%nat by lia. symmetry. apply gcd_loop_more, N, Hk.
  - replace (5 * k + 1)%nat with (gcd_fuel b + (5 * k + 1 - gcd_fuel b))%nat by lia. apply gcd_loop_more.
    assert (Hs : val b < 10 ^ Z.of_nat (9 * size b)).
    { pose proof (bins_val_bound (bins b) (proj2 (okrep_wf _ Hb))) as U. fold (aval b) in U.
      rewrite (val_nonneg_abs b) in U by (auto; lia). unfold pw in U. unfold size. rewrite Nat2Z.inj_mul, Z.pow_mul_r by lia. exact (proj2 U). }
    unfold gcd_fuel. replace (64 * size b + 64)%nat with (5 * (9 * size b) + 1 + (19 * size b + 63))%nat by lia.
    rewrite gcd_loop_more; apply N, Hs.
Qed.

(** *** Depth of exponentiation *)
Lemma exponentiate_more n : forall x y m, exponentiate n x y <> OutOfFuel -> exponentiate (n + m) x y = exponentiate n x y.
Proof.
  induction n as [|n IH]; intros x y m H; [cbn in H; congruence|].
  cbn [Nat.add exponentiate] in *. destruct (equals_int32 y 0) as [[]| | | |]; cbn [bind] in *; auto.
  destruct (equals_int32 y 1) as [[]| | | |]; cbn [bind] in *; auto.
  destruct (is_odd y) as [[]| | | |]; cbn [bind] in *; auto.
  - destruct (Int_of_int64 1 0); cbn [bind] in *; auto. destruct (op_sub y _) as [ym| | | |]; cbn [bind] in *; auto.
    rewrite IH; auto. intros E. rewrite E in H. apply H. reflexivity.
  - destruct (divide_by_int y 2 false) as [h| | | |]; cbn [bind] in *; auto.
    rewrite IH; auto. intros E. rewrite E in H. apply H. reflexivity.
Qed.
Definition returns_or_stops (p : res Int) : Prop := p = Abort \/ exists r, p = Ok r /\ canonical r.
Lemma pow_step x : canonical x -> forall f y, wf y -> nonneg y ->
  (aval y <= 1 -> returns_or_stops (exponentiate (S f) x y)) /\
  (Z.odd (aval y) = true -> (forall z, wf z -> nonneg z -> aval z = aval y - 1 -> returns_or_stops (exponentiate f x z)) ->
     returns_or_stops (exponentiate (S f) x y)) /\
  (Z.odd (aval y) = false -> (forall z, wf z -> nonneg z -> aval z = aval y / 2 -> returns_or_stops (exponentiate f x z)) ->
     returns_or_stops (exponentiate (S f) x y)).
Proof.
  intros Cx f y Hy Hyn. pose proof (aval_nonneg y Hy) as Hy0. unfold returns_or_stops.
  cbn [exponentiate]. rewrite equals_int32_0 by auto. rewrite bind_ok.
  destruct (aval y =? 0) eqn:E0.
  { assert (D : set_value 1 = Abort \/ exists r, set_value 1 = Ok r /\ canonical r).
    { right. rewrite set_value_ok by (unfold INT32_MIN, INT32_MAX; lia). eexists; split; [reflexivity|exact one_canonical]. }
    splits; intros; exact D. }
  rewrite (equals_int32_gen y 1) by (auto; unfold INT32_MIN, INT32_MAX; lia). rewrite bind_ok.
  match goal with |- context [if ?b then Ok x else _] => destruct b eqn:E1 end.
  { splits; intros; right; eauto. }
  splits.
  - intros L. assert (A1 : aval y = 1) by lia. left.
    rewrite is_odd_spec, bind_ok by auto. rewrite (val_nonneg_aval y Hyn), A1. change (Z.odd 1) with true. cbv iota.
    destruct (Int_of_int64_ok 1 0) as (one & Ho & Hov & Hoc & Hon & _); [unfold INT64_MIN, INT64_MAX; lia|].
    rewrite Ho, bind_ok. rewrite pw_0 in Hov.
    assert (Nt : trimmedb (bins y) = false).
    { destruct (trimmedb (bins y)) eqn:T; auto. exfalso. apply (trimmedb_spec _ (proj1 Hy)) in T.
      unfold nonneg in Hyn. rewrite Hyn, A1 in E1. change (Z.abs 1) with 1 in E1. cbn in E1. rewrite andb_true_r in E1.
      assert (Ls : length (bins y) <> 0%nat) by (destruct (bins y) eqn:Eb; [destruct Hy; congruence|discriminate]).
      destruct (Nat.eq_dec (length (bins y)) 1) as [S1|S1].
      - unfold size in E1. rewrite S1 in E1. cbn in E1. discriminate.
      - pose proof (trimmed_lower (bins y) (proj2 Hy) T ltac:(lia)) as Lw. fold (aval y) in Lw. rewrite A1 in Lw.
        destruct (length (bins y) - 1)%nat as [|m] eqn:Em; [lia|]. rewrite pw_S in Lw. pose proof (pw_pos m). lia. }
    pose proof (op_sub_gen y one Hy (canonical_wf _ Hoc)) as Hs.
    assert (Ao : aval one = 1) by (rewrite <- (val_nonneg_abs one (canonical_wf _ Hoc)) in Hov by lia; lia).
    rewrite Hyn, Hon, A1, Ao in Hs. change (1 >? 1) with false in Hs. cbv iota in Hs. rewrite Nt in Hs. cbn [Bool.eqb andb negb] in Hs.
    rewrite Hs. reflexivity.
  - intros Eo Hz. rewrite is_odd_spec, bind_ok by auto. rewrite (val_nonneg_aval y Hyn), Eo.
    destruct (Int_of_int64_ok 1 0) as (one & Ho & Hov & Hoc & Hon & _); [unfold INT64_MIN, INT64_MAX; lia|].
    rewrite Ho, bind_ok. rewrite pw_0 in Hov.
    pose proof (op_sub_gen y one Hy (canonical_wf _ Hoc)) as Hs.
    destruct (Bool.eqb (negative y) (negative one) && _) eqn:Ec.
    { left. rewrite Hs. reflexivity. }
    destruct Hs as (ym1 & Hs & Hw & Hv & Hzz & _ & _). rewrite Hs, bind_ok.
    assert (Hv' : val ym1 = aval y - 1) by (rewrite Hv, Hov, (val_nonneg_aval y Hyn); lia).
    assert (Hyn' : nonneg ym1).
    { unfold nonneg. destruct (negative ym1) eqn:E; auto.
      pose proof (aval_nonneg _ Hw). rewrite val_aval, E in Hv'.
      assert (V0 : val ym1 = 0) by (rewrite val_aval, E; lia). specialize (Hzz V0). congruence. }
    rewrite (val_nonneg_aval _ Hyn') in Hv'.
    destruct (Hz ym1 Hw Hyn' Hv') as [Ha|(r & Hr & Hc)].
    + left. rewrite Ha. reflexivity.
    + rewrite Hr, bind_ok. destruct (op_mul_ok x r) as (p & Hp & Hpc & _); auto. right; eauto.
  - intros Eo Hz. rewrite is_odd_spec, bind_ok by auto. rewrite (val_nonneg_aval y Hyn), Eo.
    destruct (divide_by_int_ok y 2 false Hy) as (h & Hh & Hw & Hneg & Hsz & Hv); [unfold INT32_MAX; lia|].
    rewrite Hh, bind_ok.
    destruct (Hz h Hw Hneg Hv) as [Ha|(r & Hr & Hc)].
    + left. rewrite Ha. reflexivity.
    + rewrite Hr, bind_ok. destruct (op_mul_ok r r) as (p & Hp & Hpc & _); auto. right; eauto.
Qed.
Lemma pow_halving x : canonical x -> forall k y, wf y -> nonneg y -> aval y < 2 ^ Z.of_nat (S k) ->
  returns_or_stops (exponentiate (2 * k + 1) x y) /\
  (Z.odd (aval y) = false -> (1 <= k)%nat -> returns_or_stops (exponentiate (2 * k) x y)).
Proof.
  intros Cx. induction k as [|k IH]; intros y Hy Hn Hk.
  - split; [|intros; lia]. change (2 ^ Z.of_nat 1) with 2 in Hk. apply (proj1 (pow_step x Cx 0 y Hy Hn)). lia.
  - assert (Ev : forall y, wf y -> nonneg y -> aval y < 2 ^ Z.of_nat (S (S k)) -> Z.odd (aval y) = false -> returns_or_stops (exponentiate (2 * S k) x y)).
    { clear y Hy Hn Hk. intros y Hy Hn Hk Eo. replace (2 * S k)%nat with (S (2 * k + 1)) by lia.
      apply (proj2 (proj2 (pow_step x Cx (2 * k + 1) y Hy Hn))); auto. intros z Hz Hzn Vz. apply IH; auto. rewrite Vz.
      rewrite (Nat2Z.inj_succ (S k)), Z.pow_succ_r in Hk by lia. apply Z.div_lt_upper_bound; lia. }
    split; [|intros Eo _; apply Ev; auto].
    replace (2 * S k + 1)%nat with (S (2 * S k)) by lia.
    destruct (Z.odd (aval y)) eqn:Eo.
    + apply (proj1 (proj2 (pow_step x Cx (2 * S k) y Hy Hn))); auto. intros z Hz Hzn Vz. apply Ev; auto; [lia|].
      rewrite Vz, Z.odd_sub, Eo. reflexivity.
    + replace (S (2 * S k)) with (S (S (2 * k + 1))) by lia.
      apply (proj2 (proj2 (pow_step x Cx _ y Hy Hn))); auto. intros z Hz Hzn Vz.
      assert (L : aval z < 2 ^ Z.of_nat (S k)).
      { rewrite Vz. rewrite (Nat2Z.inj_succ (S k)), Z.pow_succ_r in Hk by lia. apply Z.div_lt_upper_bound; lia. }
      destruct (IH z Hz Hzn L) as [R _].
      replace (S (2 * k + 1)) with (2 * k + 1 + 1)%nat by lia. rewrite exponentiate_more; auto.
      destruct R as [R|(r & R & _)]; rewrite R; discriminate.
Qed.
Lemma pow_depth x y k : canonical x -> canonical y -> 0 <= val y < 2 ^ Z.of_nat (S k) ->
  exponentiate (2 * k + 1) x y = op_pow x y.
Proof.
  intros Cx Cy P.
  assert (Ny : nonneg y). { unfold nonneg. rewrite (canonical_neg_eq y Cy). lia. }
  assert (Ey : val y = aval y) by (apply val_nonneg_aval, Ny).
  assert (N : forall m, val y < 2 ^ Z.of_nat (S m) -> exponentiate (2 * m + 1) x y <> OutOfFuel).
  { intros m Hm. destruct (pow_halving x Cx m y) as [[E|(r & E & _)] _]; auto; try (rewrite E; discriminate). lia. }
  unfold op_pow. destruct (Nat.le_ge_cases (2 * k + 1) (exp_fuel y)) as [L|L].
  - replace (exp_fuel y) with (2 * k + 1 + (exp_fuel y - (2 * k + 1)))%nat by lia. symmetry. apply exponentiate_more, N. lia.
  - replace (2 * k + 1)%nat with (exp_fuel y + (2 * k + 1 - exp_fuel y))%nat by lia. apply exponentiate_more.
    assert (Hs : val y < 2 ^ Z.of_nat (S (30 * size y))).
    { pose proof (size_bound y Cy) as U. rewrite Z.abs_eq in U by lia. rewrite Nat2Z.inj_succ, Z.pow_succ_r by lia.
      assert (10 ^ (9 * Z.of_nat (size y)) <= 2 ^ Z.of_nat (30 * size y)); [|lia].
      rewrite Nat2Z.inj_mul, !Z.pow_mul_r by lia. apply Z.pow_le_mono_l. split; [lia|]. vm_compute. discriminate. }
    unfold exp_fuel. replace (64 * size y + 64)%nat with (2 * (30 * size y) + 1 + (4 * size y + 63))%nat by lia.
    rewrite exponentiate_more; apply N, Hs.
Qed.

(** *** Trial products per bin of a quotient *)
Lemma iter_quotient_more n : forall y x b step m, iter_quotient n y x b step <> OutOfFuel -> iter_quotient (n + m) y x b step = iter_quotient n y x b step.
Proof.
  induction n as [|n IH]; intros y x b step m H; [cbn in H; congruence|].
  cbn [Nat.add iter_quotient] in *. destruct (i32 _); cbn [bind] in *; auto. destruct (multiply_by_int x _); cbn [bind] in *; auto.
  destruct (op_sub y _); cbn [bind] in *; auto. destruct (_ && _); auto.
Qed.
(** The search of quotient_and_remainder when each halving may make [n] trial products. *)
Fixpoint qr_search (n : nat) (halvings : nat) (y x : Int) (step q : Z) (r : Int) : res (Z * Int) :=
  if step >? 1 then
    match halvings with
    | O => OutOfFuel
    | S h => p <- iter_quotient n y x q (Z.quot step 2) ;; qr_search n h y x (Z.quot step 2) (fst p) (snd p)
    end
  else Ok (q, r).
Lemma qr_search_spec y x (Q : Z) :
  wf x -> wf y -> trimmed (bins y) -> nonneg y -> 0 < aval x -> Q = aval y / aval x -> Q < B ->
  forall h fuel step q r, 0 <= q < Q -> 1 <= step <= B -> Q <= q + step -> step < 2 ^ Z.of_nat (S h) -> (h < fuel)%nat ->
  qr_search 3 h y x step q r = qr_loop fuel y x step q r.
Proof.
  intros Hx Hy Ty Ny Px EQ HQ. induction h as [|h IH]; intros fuel step q r Hq Hs HQs Hh Hf.
  - cbn in Hh. destruct fuel as [|f]; [lia|]. cbn [qr_search qr_loop]. destruct (Z.gtb_spec step 1); [lia|reflexivity].
  - destruct fuel as [|f]; [lia|]. cbn [qr_search qr_loop]. destruct (Z.gtb_spec step 1); [|reflexivity].
    assert (S2 : step ÷ 2 = step / 2) by (apply Z.quot_div_nonneg; lia).
    assert (S3 : 0 < step / 2 /\ step / 2 * 2 <= step /\ step <= step / 2 * 2 + 1) by ldiv.
    rewrite S2. set (st := step / 2) in *. clearbody st.
    destruct (iter_quotient_spec y x Q Hx Hy Ty Ny Px EQ HQ 3 q st Hq ltac:(lia)) as [q' [r' [E [H1 [H2 [H3 H4]]]]]]; [lia|].
    assert (E' : iter_quotient ITER_FUEL y x q st = iter_quotient 3 y x q st).
    { change ITER_FUEL with (3 + 5)%nat. apply iter_quotient_more. rewrite E. discriminate. }
    rewrite E', E. cbn [bind fst snd]. apply IH; try lia.
    rewrite Nat2Z.inj_succ, Z.pow_succ_r in Hh by lia. lia.
Qed.
