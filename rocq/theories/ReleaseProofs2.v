(** What the build without assertions does where an assertion fails. *)
From Coq Require Import ZifyBool.
From Verif Require Import Base IntModel IntSpec IntBasics IntAddSub IntMul IntDiv IntMod IntScale IntPowDefined ReleaseModel ReleaseSpec ReleaseProofs.
Local Open Scope list_scope.
Local Open Scope Z_scope.

(** *** Subtraction *)
Lemma sub_loop_short xs : forall bs c, Forall digit_ok bs -> Forall digit_ok xs -> (length bs < length xs)%nat -> 0 <= c <= 1 ->
  sub_loop bs xs c = Throw OutOfRange.
Proof.
  induction xs as [|x xs IH]; intros bs c Hb Hx Hl Hc; cbn [length] in Hl; [lia|]. cbn [sub_loop]. destruct bs as [|b bs]; [reflexivity|].
  inversion Hb as [|? ? Hb0 Hb']; inversion Hx as [|? ? Hx0 Hx']; subst. unfold digit_ok in Hb0, Hx0. cbn [length] in Hl.
  rewrite i32_ok by (unfold INT32_MIN, INT32_MAX; lia). cbn [bind]. rewrite i32_ok by (unfold INT32_MIN, INT32_MAX; lia). cbn [bind]. unfold BIN_LIMIT.
  destruct (Z.ltb_spec (b - c - x) 0).
  - rewrite i32_ok by (unfold INT32_MIN, INT32_MAX; lia). cbn [bind]. rewrite IH; auto; lia.
  - rewrite IH; auto; lia.
Qed.
Lemma subtract_nd_ok x y : wf x -> wf y -> (size y <= size x)%nat -> aval y <= aval x ->
  exists r, subtract_nd x y = Ok r /\ wf r /\ trimmed (bins r) /\ aval r = aval x - aval y /\ negative r = negative x.
Proof.
  intros Hx Hy Hs H. unfold subtract_nd. destruct Hx as [Nx Hx], Hy as [Ny Hy]. unfold aval, size in *.
  destruct (sub_loop_spec (bins y) (bins x) 0 Hx Hy) as [bs [E3 [E4 [E5 E6]]]]; try lia.
  rewrite E3. cbn [bind]. eexists; split; [reflexivity|]. cbn [bins negative].
  assert (Nb : bs <> []) by (destruct bs; [destruct (bins x); cbn in *; congruence|discriminate]).
  destruct (clean_list_spec bs E5 Nb) as [n [C1 [C2 [C3 C4]]]].
  splits; auto.
  - split; [apply C2|assumption].
  - lia.
Qed.
Lemma subtract_nd_short x y : wf x -> wf y -> (size x < size y)%nat -> subtract_nd x y = Throw OutOfRange.
Proof. intros [_ Hx] [_ Hy] Hs. unfold subtract_nd, size in *. rewrite sub_loop_short; auto. lia. Qed.
Lemma pw_B n : (1 <= n)%nat -> pw (n - 1) = (10 ^ 9) ^ (Z.of_nat n - 1).
Proof. intros H. unfold pw. change B with (10 ^ 9). f_equal. lia. Qed.
Lemma fits_size n x : wf x -> trimmed (bins x) -> fits n (aval x) <-> (n <= size x)%nat.
Proof.
  intros Hx Tx. pose proof (size_pos x Hx). unfold fits. split.
  - intros [H1|H1]; [lia|]. destruct (le_lt_dec n 1) as [L|L]; [lia|]. rewrite <- pw_B in H1 by lia.
    pose proof (size_ge_of_aval x (n - 1) Hx H1). lia.
  - intros H1. destruct (le_lt_dec n 1) as [L|L]; [left; exact L|right]. rewrite <- pw_B by lia.
    pose proof (trimmed_lower (bins x) (proj2 Hx) Tx ltac:(unfold size in *; lia)). pose proof (pw_le (n - 1) (length (bins x) - 1) ltac:(unfold size in *; lia)). unfold aval. lia.
Qed.
Lemma clean_aval x : wf x -> aval (clean_bins x) = aval x.
Proof. intros H. apply clean_bins_wf. exact H. Qed.
Lemma addsub_sub_nonneg_nd f x y : wf x -> wf y -> nonneg x -> nonneg y ->
  (fits (size (if aval x >? aval y then y else x)) (Z.max (aval x) (aval y)) ->
     exists r, addsub_nd (S f) true x y = Ok r /\ canonical r /\ val r = val x - val y) /\
  (~ fits (size (if aval x >? aval y then y else x)) (Z.max (aval x) (aval y)) -> addsub_nd (S f) true x y = Throw OutOfRange).
Proof.
  unfold nonneg. intros Hx Hy Nx Ny. cbn [addsub_nd]. rewrite Nx, Ny. cbn [andb negb].
  rewrite op_gt_spec by assumption. cbn [bind]. rewrite !val_aval, Nx, Ny.
  destruct (clean_bins_wf x Hx) as [Wx [Tx [_ Vx]]]. destruct (clean_bins_wf y Hy) as [Wy [Ty [_ Vy]]].
  destruct (Z.gtb_spec (aval x) (aval y)).
  - replace (Z.max (aval x) (aval y)) with (aval (clean_bins x)) by lia. rewrite (fits_size _ _ Wx Tx). split.
    + intros Hf. destruct (subtract_nd_ok _ _ Wx Hy Hf ltac:(lia)) as [r [E [W [Tr [V N]]]]].
      exists r. splits; auto.
      * destruct r as [l n]. cbn in N. rewrite Nx in N. subst n. apply mk_canonical; auto; [apply W|discriminate].
      * rewrite val_aval, N. cbn. rewrite Nx. lia.
    + intros Hf. apply subtract_nd_short; auto. lia.
  - replace (Z.max (aval x) (aval y)) with (aval (clean_bins y)) by lia. rewrite (fits_size _ _ Wy Ty). split.
    + intros Hf. destruct (subtract_nd_ok _ _ Wy Hx Hf ltac:(lia)) as [r [E [W [Tr [V N]]]]].
      rewrite E. cbn [bind]. destruct (op_neg_ok r W) as [r' [E' [V' [B' [W' [Z' [N' C']]]]]]].
      exists r'. splits; auto. rewrite V', val_aval, N. cbn. rewrite Ny. lia.
    + intros Hf. rewrite subtract_nd_short; auto. lia.
Qed.
Definition subtrahend (x y : Int) : Int := if aval x >? aval y then y else x.
Lemma op_sub_nd_gen x y : wf x -> wf y ->
  (negative x <> negative y -> op_sub_nd x y = op_sub x y) /\
  (negative x = negative y -> fits (size (subtrahend x y)) (Z.max (aval x) (aval y)) ->
     exists r, op_sub_nd x y = Ok r /\ canonical r /\ val r = val x - val y) /\
  (negative x = negative y -> ~ fits (size (subtrahend x y)) (Z.max (aval x) (aval y)) -> op_sub_nd x y = Throw OutOfRange).
Proof.
  intros Hx Hy. split; [|].
  - intros Hn. pose proof (op_sub_gen x y Hx Hy) as G. replace (Bool.eqb (negative x) (negative y)) with false in G by (revert Hn; destruct (negative x), (negative y); cbn; congruence).
    cbn [andb] in G. destruct G as (r & E & _). rewrite E. apply op_sub_keeps. exact E.
  - unfold op_sub_nd, subtrahend. remember 2%nat as f eqn:Ef. destruct (negative x) eqn:Nx, (negative y) eqn:Ny; try (split; discriminate).
    + destruct (op_neg_nonneg x Hx Nx) as [nx [E1 [W1 [N1 [V1 B1]]]]].
      destruct (op_neg_nonneg y Hy Ny) as [ny [E2 [W2 [N2 [V2 B2]]]]].
      cbn [addsub_nd]. rewrite Nx, Ny. cbn [andb negb]. rewrite E1, E2. cbn [bind]. subst f.
      pose proof (addsub_sub_nonneg_nd 1 nx ny W1 W2 N1 N2) as G.
      rewrite (aval_bins nx x B1), (aval_bins ny y B2) in G.
      replace (size (if aval x >? aval y then ny else nx)) with (size (if aval x >? aval y then y else x)) in G
        by (unfold size; destruct (aval x >? aval y); congruence).
      destruct G as [G1 G2]. split; intros _ Hf.
      * destruct (G1 Hf) as [r [E [C V]]]. rewrite E. cbn [bind].
        destruct (op_neg_ok r ltac:(auto)) as [r' [E' [V' [B' [W' [Z' [_ C']]]]]]]. exists r'. splits; auto. lia.
      * rewrite (G2 Hf). reflexivity.
    + destruct (addsub_sub_nonneg_nd f x y Hx Hy Nx Ny) as [G1 G2]. split; intros _ Hf; auto.
Qed.
Lemma op_add_nd_gen x y : wf x -> wf y ->
  (negative x = negative y -> op_add_nd x y = op_add x y) /\
  (negative x <> negative y -> fits (size (subtrahend x y)) (Z.max (aval x) (aval y)) ->
     exists r, op_add_nd x y = Ok r /\ canonical r /\ val r = val x + val y) /\
  (negative x <> negative y -> ~ fits (size (subtrahend x y)) (Z.max (aval x) (aval y)) -> op_add_nd x y = Throw OutOfRange).
Proof.
  intros Hx Hy. split; [|].
  - intros Hn. pose proof (op_add_gen x y Hx Hy) as G. replace (Bool.eqb (negative x) (negative y)) with true in G by (revert Hn; destruct (negative x), (negative y); cbn; congruence).
    cbn [andb negb] in G. destruct G as (r & E & _). rewrite E. apply op_add_keeps. exact E.
  - unfold op_add_nd, subtrahend. remember 2%nat as f eqn:Ef. destruct (negative x) eqn:Nx, (negative y) eqn:Ny; try (split; congruence).
    + destruct (op_neg_nonneg x Hx Nx) as [nx [E1 [W1 [N1 [V1 B1]]]]].
      cbn [addsub_nd]. rewrite Nx, Ny. cbn [andb negb]. rewrite E1. cbn [bind]. subst f.
      pose proof (addsub_sub_nonneg_nd 1 nx y W1 Hy N1 Ny) as G. rewrite (aval_bins nx x B1) in G.
      replace (size (if aval x >? aval y then y else nx)) with (size (if aval x >? aval y then y else x)) in G
        by (unfold size; destruct (aval x >? aval y); congruence).
      destruct G as [G1 G2]. split; intros _ Hf.
      * destruct (G1 Hf) as [r [E [C V]]]. rewrite E. cbn [bind].
        destruct (op_neg_ok r ltac:(auto)) as [r' [E' [V' [B' [W' [Z' [_ C']]]]]]]. exists r'. splits; auto. lia.
      * rewrite (G2 Hf). reflexivity.
    + destruct (op_neg_nonneg y Hy Ny) as [ny [E2 [W2 [N2 [V2 B2]]]]].
      cbn [addsub_nd]. rewrite Nx, Ny. cbn [andb negb]. rewrite E2. cbn [bind]. subst f.
      pose proof (addsub_sub_nonneg_nd 1 x ny Hx W2 Nx N2) as G. rewrite (aval_bins ny y B2) in G.
      replace (size (if aval x >? aval y then ny else x)) with (size (if aval x >? aval y then y else x)) in G
        by (unfold size; destruct (aval x >? aval y); congruence).
      destruct G as [G1 G2]. split; intros _ Hf.
      * destruct (G1 Hf) as [r [E [C V]]]. exists r. splits; auto. lia.
      * exact (G2 Hf).
Qed.

(** *** Division *)
Definition greatest_stuck (l : list Z) (X : Z) (j : nat) : Prop :=
  (1 <= j)%nat /\ (j + 2 <= length l)%nat /\ nth j l 0 = 0 /\ bins_val l / pw (j + 1) < X /\
  forall j', (1 <= j')%nat -> (j' + 2 <= length l)%nat -> nth j' l 0 = 0 -> bins_val l / pw (j' + 1) < X -> (j' <= j)%nat.
Lemma divide_nd_stuck x y : wf x -> wf y -> divide x y = Abort ->
  exists j, greatest_stuck (bins x) (aval y) j /\ divide_nd x y = (mkInt (clean_list (firstn (j + 1) (bins x))) (negative x), Throw OutOfRange).
Proof.
  intros Hx Hy Hab. unfold divide, divide_nd in *. rewrite equals_int32_0 in * by assumption. cbn [bind] in Hab.
  pose proof (abs_val x Hx) as Ax. pose proof (abs_val y Hy) as Ay. pose proof (aval_nonneg x Hx) as Px. pose proof (aval_nonneg y Hy) as Py.
  destruct (Z.eqb_spec (aval y) 0) as [Ey|Ey]; [discriminate|].
  rewrite cmp_bins_spec in * by assumption.
  destruct (Z.ltb_spec (Z.sgn (aval x - aval y)) 0); [discriminate|].
  assert (exists xn, (if negative y then op_neg y else Ok y) = Ok xn /\ wf xn /\ nonneg xn /\ aval xn = aval y) as [xn [E1 [W1 [N1 V1]]]].
  { destruct (negative y) eqn:Ny.
    - destruct (op_neg_nonneg y Hy Ny) as [r [E [W [N [V Bb]]]]]. exists r. splits; auto. apply aval_bins; assumption.
    - exists y. splits; auto. }
  rewrite E1 in *. cbn [bind] in Hab.
  assert (H0 : div_loop (size x) xn (bins x) Int_default Int_default = Abort).
  { destruct (div_loop (size x) xn (bins x) Int_default Int_default); try discriminate. reflexivity. }
  destruct (div_loop_left xn W1 N1 ltac:(lia) (size x) (bins x) Int_default Int_default 0) as (j & Hj & Mj & E).
  { reflexivity. } { apply Hx. } { apply Int_default_canonical. } { reflexivity. } { reflexivity. } { lia. }
  { rewrite V1. unfold aval in *. lia. } { exact H0. }
  exists j. rewrite E. split; [|reflexivity].
  unfold stuck_at in Hj, Mj. rewrite V1 in Hj, Mj. replace (0 * pw (size x) + bins_val (bins x)) with (bins_val (bins x)) in Hj, Mj by lia.
  destruct Hj as (J1 & J2 & J3 & J4). unfold greatest_stuck. splits; auto.
Qed.
Lemma op_div_released x y : wf x -> wf y -> op_div_nd x y = released (op_div x y).
Proof.
  intros Hx Hy. destruct (divide_gen x y Hx Hy) as [[H E]|[(_ & _ & E)|(_ & _ & [(_ & E)|(_ & r & E & _)])]]; unfold op_div; rewrite E; cbn [released].
  - unfold op_div_nd, divide_nd. rewrite equals_int32_0 by assumption. pose proof (abs_val y Hy). replace (aval y =? 0) with true by lia. reflexivity.
  - apply op_div_keeps. exact E.
  - destruct (divide_nd_stuck x y Hx Hy E) as (j & _ & E2). unfold op_div_nd. rewrite E2. reflexivity.
  - apply op_div_keeps. exact E.
Qed.
Lemma bins_val_firstn l : forall n, Forall digit_ok l -> bins_val (firstn n l) = bins_val l mod pw n.
Proof.
  induction l as [|b l IH]; intros [|n] H; cbn [firstn bins_val]; try (rewrite pw_0, Z.mod_1_r; reflexivity).
  - rewrite Z.mod_0_l; [reflexivity|]. pose proof (pw_pos (S n)). lia.
  - inversion H as [|? ? Hb Hd]; subst. rewrite IH by assumption. unfold digit_ok in Hb. pose proof (pw_pos n). rewrite pw_S.
    rewrite (Z.add_comm b), (Z.add_comm b), (Z.mul_comm B (bins_val l)), (Z.mul_comm B (pw n)). symmetry. pose proof (Z.mod_pos_bound (bins_val l) (pw n) ltac:(lia)).
    pose proof (Z.div_mod (bins_val l) (pw n) ltac:(lia)).
    symmetry. apply (Z.mod_unique _ _ (bins_val l / pw n)); [left; nia|nia].
Qed.
Lemma stops_stuck x b j : wf x -> trimmed (bins x) ->
  stops_at (aval x) b (Z.of_nat j) <-> (1 <= j)%nat /\ (j + 2 <= length (bins x))%nat /\ nth j (bins x) 0 = 0 /\ bins_val (bins x) / pw (j + 1) < b.
Proof.
  intros Hx Tx. unfold stops_at. change (10 ^ 9) with B.
  replace (B ^ (Z.of_nat j + 1)) with (pw (j + 1)) by (unfold pw; f_equal; lia). change (B ^ Z.of_nat j) with (pw j). rewrite (nth_digit (bins x) j (proj2 Hx)). fold (aval x). split.
  - intros (H1 & H2 & H3 & H4). pose proof (size_ge_of_aval x (j + 1) Hx H2). unfold size in *. splits; auto; lia.
  - intros (H1 & H2 & H3 & H4). pose proof (trimmed_lower _ (proj2 Hx) Tx ltac:(lia)).
    pose proof (pw_le (j + 1) (length (bins x) - 1) ltac:(lia)). fold (aval x) in H. splits; auto; lia.
Qed.
Lemma divide_nd_left x y : wf x -> trimmed (bins x) -> wf y -> divide x y = Abort ->
  exists l, divide_nd x y = (l, Throw OutOfRange) /\ wf l /\ trimmed (bins l) /\ negative l = negative x /\ left_of (aval x) (aval y) (aval l) /\ aval l < aval x.
Proof.
  intros Hx Tx Hy E. destruct (divide_nd_stuck x y Hx Hy E) as (j & (J1 & J2 & J3 & J4 & J5) & E2). eexists. split; [exact E2|]. cbn [negative bins].
  assert (D : Forall digit_ok (firstn (j + 1) (bins x))).
  { assert (D := proj2 Hx). rewrite <- (firstn_skipn (j + 1) (bins x)) in D. apply Forall_app in D. apply D. }
  destruct (clean_list_spec (firstn (j + 1) (bins x)) D) as (n & _ & T & D2 & V).
  { destruct (bins x); [cbn in J2; lia|]. rewrite Nat.add_1_r. discriminate. }
  assert (Hs : stops_at (aval x) (aval y) (Z.of_nat j)) by (apply stops_stuck; auto).
  assert (Ev : bins_val (clean_list (firstn (j + 1) (bins x))) = aval x mod pw j).
  { rewrite V, bins_val_firstn by apply Hx. rewrite nth_digit in J3 by apply Hx. fold (aval x) in J3 |- *. rewrite Nat.add_1_r, pw_S, (Z.mul_comm B).
    pose proof (pw_pos j). rewrite Z.rem_mul_r by lia. rewrite J3. lia. }
  splits; auto.
  - split; [apply T|exact D2].
  - exists (Z.of_nat j). splits; auto. intros j' Hj'. assert (1 <= j') by apply Hj'. replace j' with (Z.of_nat (Z.to_nat j')) in Hj' by lia. apply stops_stuck in Hj'; auto. destruct Hj' as (K1 & K2 & K3 & K4). pose proof (J5 _ K1 K2 K3 K4). lia.
  - unfold aval at 1. cbn [bins]. rewrite Ev. destruct Hs as (_ & Hs & _). pose proof (pw_pos j). pose proof (Z.mod_pos_bound (aval x) (pw j) ltac:(lia)).
    replace ((10 ^ 9) ^ (Z.of_nat j + 1)) with (pw (S j)) in Hs by (unfold pw; change (10 ^ 9) with B; f_equal; lia). rewrite pw_S in Hs. nia.
Qed.

(** *** Remainder *)
Lemma op_mod_released x y : wf x -> trimmed (bins x) -> wf y -> trimmed (bins y) -> op_mod_nd x y = released (op_mod x y).
Proof.
  intros Hx Tx Hy Ty. destruct (mod_operand x Hx Tx) as [a [Ea [Wa [Ta Va]]]]. destruct (mod_operand y Hy Ty) as [b [Eb [Wb [Tb Vb]]]].
  destruct (op_div a b) as [q|e| | |] eqn:Eq.
  - assert (exists r, op_mod x y = Ok r) as [r E].
    { destruct (divide_gen a b Wa Wb) as [[H E]|Hd]; [unfold op_div in Eq; congruence|].
      assert (val y <> 0). { pose proof (abs_val b Wb). pose proof (abs_val y Hy). destruct Hd as [[? _]|[? _]]; lia. }
      destruct (div_safe_dec (Z.abs (val x)) (Z.abs (val y))) as [S|S]; [lia| |].
      - destruct (op_mod_ok x y Hx Tx Hy Ty H S) as (r & E & _). eauto.
      - exfalso. pose proof (abs_val b Wb). pose proof (abs_val y Hy). pose proof (abs_val a Wa). pose proof (abs_val x Hx).
        unfold op_div in Eq. rewrite divide_unsafe in Eq; auto; [discriminate|lia|]. replace (Z.abs (val a)) with (Z.abs (val x)) by lia. replace (Z.abs (val b)) with (Z.abs (val y)) by lia. exact S. }
    rewrite E. cbn [released]. apply op_mod_keeps. exact E.
  - unfold op_mod_nd, op_mod, modulo_nd, modulo. rewrite Ea, Eb. cbn [bind]. rewrite op_div_released, Eq by assumption. reflexivity.
  - unfold op_mod_nd, op_mod, modulo_nd, modulo. rewrite Ea, Eb. cbn [bind]. rewrite op_div_released, Eq by assumption. reflexivity.
  - unfold op_mod_nd, op_mod, modulo_nd, modulo. rewrite Ea, Eb. cbn [bind]. rewrite op_div_released, Eq by assumption. reflexivity.
  - unfold op_mod_nd, op_mod, modulo_nd, modulo. rewrite Ea, Eb. cbn [bind]. rewrite op_div_released, Eq by assumption. reflexivity.
Qed.

(** *** Powers *)
Lemma exp_released x : wf x -> trimmed (bins x) -> (val x = 0 -> negative x = false) -> forall f y, wf y ->
  exponentiate_nd f x y = released (exponentiate f x y) /\ (forall r, exponentiate f x y = Ok r -> canonical r).
Proof.
  intros Hx Tx Sx. induction f as [|f IH]; intros y Hy; [split; [reflexivity|discriminate]|]. cbn [exponentiate exponentiate_nd].
  rewrite equals_int32_0 by assumption. cbn [bind]. destruct (aval y =? 0) eqn:E0.
  { rewrite set_value_ok by (unfold INT32_MIN, INT32_MAX; lia). split; [reflexivity|]. intros r [= <-]. apply one_canonical. }
  rewrite (equals_int32_gen y 1) by (auto; unfold INT32_MIN, INT32_MAX; lia). cbn [bind].
  match goal with |- context [if ?b then Ok x else _] => destruct b eqn:E1 end.
  { split; [reflexivity|]. intros r [= <-]. apply mk_can; auto. }
  rewrite is_odd_spec by assumption. cbn [bind]. destruct (Z.odd (val y)) eqn:Eo.
  - destruct (Int_of_int64_ok 1 0) as [one [Eone [Vone [Cone _]]]]; [unfold INT64_MIN, INT64_MAX; lia|].
    rewrite Eone. cbn [bind]. rewrite pw_0 in Vone. replace (1 * 1) with 1 in Vone by lia.
    assert (Aone : aval one = 1) by (rewrite <- abs_val, Vone by auto; reflexivity).
    assert (None1 : negative one = false) by (rewrite (canonical_neg_eq one Cone); lia).
    pose proof (op_sub_gen y one Hy ltac:(auto)) as G. destruct (Bool.eqb (negative y) (negative one) && _) eqn:Ec.
    + rewrite G. cbn [bind released]. split; [|discriminate].
      apply andb_prop in Ec. destruct Ec as [Ec1 Ec2]. rewrite None1 in Ec1. assert (Ny : negative y = false) by (destruct (negative y); [discriminate|reflexivity]).
      apply negb_true_iff in Ec2. rewrite Aone in Ec2. pose proof (aval_nonneg y Hy).
      destruct (Z.gtb_spec (aval y) 1).
      { rewrite (proj2 (trimmedb_spec (bins one) (proj1 (canonical_wf _ Cone))) ltac:(auto)) in Ec2. discriminate. }
      destruct (op_sub_nd_gen y one Hy ltac:(auto)) as (_ & _ & G3). rewrite G3; [reflexivity|congruence|].
      unfold subtrahend. rewrite Aone. replace (aval y >? 1) with false by lia. destruct (untrimmed_size y Hy Ec2) as [U1 U2].
      intros [F|F]; [lia|]. replace (Z.max (aval y) 1) with 1 in F by lia. rewrite <- pw_B in F by lia. pose proof (pw_le 1 (size y - 1) ltac:(lia)) as P1. change (pw 1) with B in P1. lia.
    + destruct G as (ym1 & Es & Ws & _). rewrite Es. rewrite (op_sub_keeps _ _ _ Es). cbn [bind]. destruct (IH ym1 Ws) as [I1 I2]. rewrite I1.
      destruct (exponentiate f x ym1) as [a|e| | |]; cbn [released bind]; try (split; [reflexivity|discriminate]).
      pose proof (I2 a eq_refl) as Ca. destruct (op_mul_ok x a) as (p & Hp & Hpc & _); auto. rewrite Hp, (op_mul_keeps _ _ _ Hp). split; [reflexivity|]. intros r [= <-]. exact Hpc.
  - destruct (divide_by_int_ok y 2 false Hy) as (h & Hh & Hw & _); [unfold INT32_MAX; lia|]. rewrite Hh. cbn [bind].
    destruct (IH h Hw) as [I1 I2]. rewrite I1. destruct (exponentiate f x h) as [a|e| | |]; cbn [released bind]; try (split; [reflexivity|discriminate]).
    pose proof (I2 a eq_refl) as Ca. destruct (op_mul_ok a a) as (p & Hp & Hpc & _); auto. rewrite Hp, (op_mul_keeps _ _ _ Hp). split; [reflexivity|]. intros r [= <-]. exact Hpc.
Qed.
Lemma op_pow_released x y : canonical x -> wf y -> op_pow_nd x y = released (op_pow x y).
Proof.
  intros Cx Hy. unfold op_pow_nd, op_pow. apply exp_released; auto.
  intros V. destruct Cx as (_ & _ & H). destruct (negative x); auto. exfalso. apply H; auto.
Qed.

(** *** Powers of ten *)
Lemma iter_div10_released n : forall x, canonical x -> finish (iter_div10_nd n x) = released (iter_div10 n x).
Proof.
  induction n as [|n IH]; intros x Cx; cbn [iter_div10 iter_div10_nd]; [reflexivity|].
  destruct (Int_of_int64_ok 10 0) as [ten [Et [Vt [Ct _]]]]; [unfold INT64_MIN, INT64_MAX; lia|]. rewrite Et. cbn [bind].
  pose proof (op_div_released x ten ltac:(auto) ltac:(auto)) as Hr. unfold op_div_nd, finish in Hr. unfold div_assign_nd, div_assign. cbn [rd]. unfold op_div in Hr.
  destruct (divide_gen x ten ltac:(auto) ltac:(auto)) as [[H E]|[(_ & _ & E)|(_ & _ & [(_ & E)|(_ & r & E & Cr & _)])]]; rewrite E in *; cbn [released bind] in *.
  - destruct (divide_nd x ten) as [l m]. cbn [snd fst] in Hr. destruct m as [[]|e| | |]; try discriminate; cbn [bind] in Hr; exact Hr.
  - rewrite (divide_keeps _ _ _ E). apply IH. apply canonical_zero.
  - destruct (divide_nd x ten) as [l m]. cbn [snd fst] in Hr. destruct m as [[]|e| | |]; try discriminate; cbn [bind] in Hr; exact Hr.
  - rewrite (divide_keeps _ _ _ E). apply IH. exact Cr.
Qed.
Lemma tpt_released x p : canonical x -> INT32_MIN < p <= INT32_MAX -> finish (times_power_ten_nd x p) = released (times_power_ten x p).
Proof.
  intros Cx Hp. unfold times_power_ten, times_power_ten_nd. destruct (p >? 0) eqn:E0.
  - assert (H : p > 0) by lia. destruct (tpt_pos x p (canonical_wf x Cx)) as (r & E & _); [lia|]. unfold times_power_ten in E. rewrite E0 in E. rewrite E. cbn [released].
    assert (K : keeps (t <- iter_mul10 (Z.to_nat (Z.rem p BIN_WIDTH)) x ;; Ok (mkInt (repeat 0 (Z.to_nat (Z.quot p BIN_WIDTH)) ++ bins t) (negative t)))
                      (t <- iter_mul10_nd (Z.to_nat (Z.rem p BIN_WIDTH)) x ;; Ok (mkInt (repeat 0 (Z.to_nat (Z.quot p BIN_WIDTH)) ++ bins t) (negative t)))) by kp.
    rewrite (K r E). reflexivity.
  - destruct (p <? 0); [|reflexivity]. rewrite i32_ok by (unfold INT32_MIN, INT32_MAX in *; lia). cbn [bind].
    pose proof (skipn_canonical x (Z.to_nat (Z.quot (- p) BIN_WIDTH)) Cx) as Ck.
    destruct (skipn _ (bins x)) as [|b l]; [rewrite set_value_ok by (unfold INT32_MIN, INT32_MAX; lia); reflexivity|]. apply iter_div10_released. apply Ck. discriminate.
Qed.
