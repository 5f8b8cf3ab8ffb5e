(** Exponentiation never reaches undefined behaviour and always terminates,
    for every exponent (also the ones for which it gives a wrong power). *)
From Coq Require Import ZifyBool.
From Verif Require Import Base IntModel IntSpec IntBasics IntAddSub IntMul IntDiv IntMod.

Lemma mk_can x : wf x -> trimmed (bins x) -> (val x = 0 -> negative x = false) -> canonical x.
Proof. intros H1 H2 H3. unfold canonical. splits; auto. intros Hn Hz. apply H3 in Hz. congruence. Qed.

Lemma exp_defined x : wf x -> trimmed (bins x) -> (val x = 0 -> negative x = false) ->
  forall fuel y, wf y -> nonneg y ->
  2 * Z.log2 (aval y) + (if Z.odd (aval y) then 1 else 0) + 1 <= Z.of_nat fuel ->
  exponentiate fuel x y = Abort \/ exists r, exponentiate fuel x y = Ok r /\ canonical r.
Proof.
  intros Hx Ht Hn. induction fuel as [|f IH]; intros y Hy Hyn Hf.
  { pose proof (Z.log2_nonneg (aval y)). destruct (Z.odd (aval y)); lia. }
  pose proof (aval_nonneg y Hy) as Hy0.
  cbn [exponentiate]. rewrite equals_int32_0 by auto. rewrite bind_ok.
  destruct (aval y =? 0) eqn:E0.
  { right. rewrite set_value_ok by (unfold INT32_MIN, INT32_MAX; lia). eexists; split; [reflexivity|exact one_canonical]. }
  rewrite (equals_int32_gen y 1) by (auto; unfold INT32_MIN, INT32_MAX; lia). rewrite bind_ok.
  match goal with |- context [if ?b then Ok x else _] => destruct b eqn:E1 end.
  { right. exists x. split; [reflexivity|]. apply mk_can; auto. }
  rewrite is_odd_spec, bind_ok by auto.
  rewrite (val_nonneg_aval y Hyn).
  destruct (Z.odd (aval y)) eqn:Eo.
  - destruct (Int_of_int64_ok 1 0) as (one & Ho & Hov & Hoc & Hon & _); [unfold INT64_MIN, INT64_MAX; lia|].
    rewrite Ho, bind_ok. rewrite pw_0 in Hov.
    pose proof (op_sub_gen y one Hy (canonical_wf _ Hoc)) as Hs.
    destruct (Bool.eqb (negative y) (negative one) && _) eqn:Ec.
    { left. rewrite Hs. reflexivity. }
    destruct Hs as (ym1 & Hs & Hw & Hv & Hz & _ & _). rewrite Hs, bind_ok.
    assert (Hv' : val ym1 = aval y - 1) by (rewrite Hv, Hov, (val_nonneg_aval y Hyn); lia).
    assert (Hyn' : nonneg ym1).
    { unfold nonneg. destruct (negative ym1) eqn:E; auto.
      pose proof (aval_nonneg _ Hw). rewrite val_aval, E in Hv'.
      assert (val ym1 = 0) by (rewrite val_aval, E; lia). specialize (Hz H0). congruence. }
    rewrite (val_nonneg_aval _ Hyn') in Hv'.
    destruct (IH ym1 Hw Hyn') as [Ha|(r & Hr & Hc)].
    { rewrite Hv'. destruct (Z.eq_dec (aval y) 1) as [E|E].
      - rewrite E in *. change (Z.log2 (1-1)) with 0. change (Z.odd (1-1)) with false. change (Z.log2 1) with 0 in Hf. lia.
      - destruct (exp_measure_odd (aval y)) as [Hm Ho2]; [lia|auto|]. rewrite Ho2. lia. }
    + left. rewrite Ha. reflexivity.
    + rewrite Hr, bind_ok.
      destruct (op_mul_ok x r) as (p & Hp & Hpc & _); auto.
      right; eauto.
  - destruct (divide_by_int_ok y 2 false Hy) as (h & Hh & Hw & Hneg & Hsz & Hv); [unfold INT32_MAX; lia|].
    rewrite Hh, bind_ok.
    destruct (IH h Hw Hneg) as [Ha|(r & Hr & Hc)].
    { rewrite Hv. pose proof (exp_measure_even (aval y)). destruct (Z.odd (aval y / 2)); lia. }
    + left. rewrite Ha. reflexivity.
    + rewrite Hr, bind_ok. destruct (op_mul_ok r r) as (p & Hp & Hpc & _); auto. right; eauto.
Qed.

Lemma op_pow_defined x y : wf x -> trimmed (bins x) -> (val x = 0 -> negative x = false) -> canonical y ->
  op_pow x y = Abort \/ exists r, op_pow x y = Ok r /\ canonical r.
Proof.
  intros Hx Ht Hn Hy. unfold op_pow.
  assert (Hyw : wf y) by auto.
  pose proof (aval_nonneg y Hyw) as Hy0.
  destruct (negative y) eqn:Ey.
  2:{ apply exp_defined; auto.
      pose proof (exp_fuel_enough y (aval y) Hyw). lia. }
  destruct (exp_fuel y) as [|f] eqn:Ef; [unfold exp_fuel in Ef; lia|].
  assert (Hv0 : aval y <> 0).
  { destruct Hy as (_ & _ & H). specialize (H Ey). rewrite val_aval, Ey in H. lia. }
  cbn [exponentiate]. rewrite equals_int32_0 by auto. rewrite bind_ok.
  replace (aval y =? 0) with false by lia.
  rewrite (equals_int32_gen y 1) by (auto; unfold INT32_MIN, INT32_MAX; lia). rewrite bind_ok.
  match goal with |- context [if ?b then Ok x else _] => destruct b eqn:E1 end.
  { right. exists x. split; [reflexivity|]. apply mk_can; auto. }
  rewrite is_odd_spec, bind_ok by auto.
  destruct (Z.odd (val y)) eqn:Eo.
  - destruct (Int_of_int64_ok 1 0) as (one & Ho & Hov & Hoc & Hon & _); [unfold INT64_MIN, INT64_MAX; lia|].
    rewrite Ho, bind_ok. rewrite pw_0 in Hov.
    destruct (op_sub_ok y one) as (ym1 & Hs & Hw & Hv); auto.
    rewrite Hs, bind_ok.
    destruct f as [|f]; [unfold exp_fuel in Ef; pose proof (size_pos y Hyw); lia|].
    assert (Hv' : val ym1 = - (aval y + 1)) by (rewrite Hv, Hov, val_aval, Ey; lia).
    assert (Hn1 : negative ym1 = true) by (apply canonical_neg_iff; auto; lia).
    assert (Ha1 : aval ym1 = aval y + 1) by (rewrite val_aval, Hn1 in Hv'; lia).
    cbn [exponentiate]. rewrite equals_int32_0 by auto. rewrite bind_ok.
    replace (aval ym1 =? 0) with false by lia.
    rewrite (equals_int32_gen ym1 1) by (auto; unfold INT32_MIN, INT32_MAX; lia). rewrite bind_ok.
    rewrite Hn1. change (Bool.eqb true (1 <? 0) || (1 =? 0)) with false. rewrite andb_false_r.
    rewrite is_odd_spec, bind_ok by auto.
    replace (Z.odd (val ym1)) with false.
    2:{ rewrite Hv, Hov. replace (val y - 1 * 1) with (Z.pred (val y)) by lia. rewrite Z.odd_pred, <- Z.negb_odd, Eo. reflexivity. }
    destruct (divide_by_int_ok ym1 2 false) as (h & Hh & Hwh & Hneg & Hsz & Hvh); auto; [unfold INT32_MAX; lia|].
    rewrite Hh, bind_ok.
    destruct (exp_defined x Hx Ht Hn f h Hwh Hneg) as [Ha|(r & Hr & Hc)].
    { rewrite Hvh. pose proof (exp_fuel_enough y (aval ym1 / 2) Hyw) as Hfu.
      assert (0 <= aval ym1 / 2 <= B * aval y + B) by ldiv. rewrite Ef in Hfu. specialize (Hfu H). lia. }
    + left. rewrite Ha. reflexivity.
    + rewrite Hr, bind_ok. destruct (op_mul_ok r r) as (p & Hp & Hpc & _); auto.
      rewrite Hp, bind_ok. destruct (op_mul_ok x p) as (p2 & Hp2 & Hpc2 & _); auto.
      right; eauto.
  - destruct (divide_by_int_ok y 2 false Hyw) as (h & Hh & Hwh & Hneg & Hsz & Hvh); [unfold INT32_MAX; lia|].
    rewrite Hh, bind_ok.
    destruct (exp_defined x Hx Ht Hn f h Hwh Hneg) as [Ha|(r & Hr & Hc)].
    { rewrite Hvh. pose proof (exp_fuel_enough y (aval y / 2) Hyw) as Hfu.
      assert (0 <= aval y / 2 <= B * aval y + B) by ldiv. rewrite Ef in Hfu. specialize (Hfu H). lia. }
    + left. rewrite Ha. reflexivity.
    + rewrite Hr, bind_ok. destruct (op_mul_ok r r) as (p & Hp & Hpc & _); auto. right; eauto.
Qed.
