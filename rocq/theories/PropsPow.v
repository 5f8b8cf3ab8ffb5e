(** Property theorems about powers with every exponent (ids as in properties.jsonl). *)
From Coq Require Import QArith Qpower.
From Verif Require Import Base IntModel IntSpec IntBasics IntMod IntPowExact FracModel FracSpec FracProofs FracPow PropsInt PropsFrac.
From Coq Require Import ZifyBool.

(** ** C17, for every exponent: x ^ y is right for all x exactly when no halving of y
    is taken for 1 and none is 2^29. *)
Theorem C17_pow_iff : forall y, canonical y -> 0 <= val y ->
  ((forall x, canonical x -> exists r, op_pow x y = Ok r /\ canonical r /\ val r = val x ^ val y) <->
   (forall j k, ~ radix_met (val y) j k) /\ ~ leads_to_2_29 (val y)).
Proof.
  intros y Cy Py. split.
  - intros H. destruct (H (i 2) ltac:(ex)) as (r & E & _ & V). change (val (i 2)) with 2 in V.
    destruct (op_pow_exact (i 2) y ltac:(ex) Cy Py) as [(e & r' & T & E' & _ & V')|[_ E']]; [|congruence].
    change (val (i 2)) with 2 in V'. assert (r' = r) by congruence. subst r'.
    assert (Pe : 0 <= e) by (eapply power_taken_nonneg; eauto).
    assert (Q : e = val y) by (apply (Z.pow_inj_r 2); lia).
    split.
    + intros j k R. apply (proj1 (proj2 (power_taken_less _ _ _ T)) Q j k); auto. apply R.
    + destruct T as [(j & k & _ & R & M & ->)|(_ & N & _)]; auto. exfalso.
      apply (proj1 (proj2 (power_taken_less 0 (val y) (val y - 2 ^ j * (B ^ k - 1)) ltac:(left; exists j, k; splits; auto; apply R))) Q j k); auto. apply R.
  - intros [N1 N2] x Cx. destruct (op_pow_exact x y Cx Cy Py) as [(e & r & T & E & C & V)|[[_ L] _]]; [|contradiction].
    exists r. splits; auto. rewrite V. f_equal. apply (power_taken_less _ _ _ T). intros; apply N1.
Qed.
Print Assumptions C17_pow_iff.

(** ** C88 *)
Theorem C88_pow_exact : forall x y, canonical x -> canonical y -> 0 <= val y ->
  (exists e r, power_taken 0 (val y) e /\ op_pow x y = Ok r /\ canonical r /\ val r = val x ^ e) \/
  (power_stops 0 (val y) /\ op_pow x y = Abort).
Proof. exact op_pow_exact. Qed.
Theorem C88_pow_negative_exact : forall x y n, canonical x -> canonical y -> 0 < n -> val y = - n ->
  (exists e r, power_taken 1 (n + n mod 2) e /\ op_pow x y = Ok r /\ canonical r /\ val r = val x ^ (e + n mod 2)) \/
  (power_stops 1 (n + n mod 2) /\ op_pow x y = Abort).
Proof. exact op_pow_negative_exact. Qed.
(** The exponent taken is determined by y, and never exceeds it. *)
Theorem C88_taken_unique : forall lo y e e', power_taken lo y e ->
  (power_taken lo y e' -> e = e') /\ ~ power_stops lo y /\ e <= y /\
  (e = y <-> forall j k, lo <= j -> ~ radix_met y j k).
Proof.
  intros lo y e e' T. destruct (power_taken_less _ _ _ T). splits; auto.
  - intros T'. eapply power_taken_unique; eauto.
  - eapply power_taken_stops; eauto.
Qed.
Theorem C88_frac_pow_exact : forall f n, reduced f -> canonical n ->
  (exists e, power_taken 0 (Z.abs (val n)) e /\ 0 <= e /\
     (((Fval f == 0)%Q /\ val n < 0 /\ 0 < e /\ F_pow f n = Throw DivideByZero) \/
      (((Fval f == 0)%Q -> 0 <= val n) /\
       gives (F_pow f n) (Fval f ^ (if val n <? 0 then - e else e)) (norm_safe (val (top f) ^ e) (val (bot f) ^ e))))) \/
  (power_stops 0 (Z.abs (val n)) /\ F_pow f n = Abort).
Proof.
  intros f n Rf Cn. pose proof (den_pos f Rf) as P.
  destruct (F_pow_exact f n (reduced_parts f Rf) Cn) as [(e & T & Pe & M)|H]; [left|right; exact H].
  exists e. splits; auto. unfold Fval. rewrite ratio_0 by lia.
  destruct (Z.ltb_spec (val n) 0) as [L|L].
  - assert (Pe' : 0 < e).
    { destruct T as [(j & k & _ & (Hj & Hk & R) & _ & ->)|(_ & _ & ->)]; [|lia].
      pose proof (Z.mul_div_le (Z.abs (val n)) (2 ^ j) ltac:(apply Z.pow_pos_nonneg; lia)). pose proof (Z.pow_pos_nonneg 2 j ltac:(lia) Hj).
      assert (B ^ k <= Z.abs (val n) / 2 ^ j) by (destruct R as [R|[R _]]; lia). nia. }
    destruct (Z.eq_dec (val (top f)) 0) as [E|E].
    + left. splits; auto. rewrite E in M. rewrite (Z.pow_0_l e) in M by lia.
      destruct M as [[_ H]|[(H & _)|(H & _)]]; auto; contradiction.
    + right. split; [contradiction|].
      apply (makes_gives _ _ _ (ratio (val (top f)) (val (bot f)) ^ (- e))) in M.
      * destruct M as [[S M]|[S M]]; [left|right]; split; auto; [apply norm_safe_sym; exact S|].
        intros S'. apply S. apply norm_safe_sym. exact S'.
      * apply Z.pow_nonzero; lia.
      * rewrite ratio_inv by (apply Z.pow_nonzero; lia). rewrite ratio_pow by lia.
        rewrite Qpower_opp. reflexivity.
  - right. split; auto. apply makes_gives; auto.
    + apply Z.pow_nonzero; lia.
    + apply ratio_pow; lia.
Qed.
Theorem C88_frac_pow_assign_exact : forall f n, reduced f -> canonical n ->
  (exists e, power_taken 0 (Z.abs (val n)) e /\
     ((norm_safe (val (top f) ^ e) (val (bot f) ^ e) /\
       exists r, F_pow_assign f n = (r, Ok tt) /\ reduced r /\ (Fval r == Fval f ^ e)%Q) \/
      (~ norm_safe (val (top f) ^ e) (val (bot f) ^ e) /\ snd (F_pow_assign f n) = Abort))) \/
  (power_stops 0 (Z.abs (val n)) /\ F_pow_assign f n = (f, Abort)).
Proof.
  intros f n Rf Cn. pose proof (den_pos f Rf) as P.
  destruct (F_pow_assign_exact f n Rf Cn) as [(e & T & Pe & M)|H]; [left|right; exact H].
  exists e. split; auto. destruct M as [(S & r & H & R & E)|L]; [left|right; exact L]. split; auto. exists r. splits; auto.
  rewrite E. apply ratio_pow; lia.
Qed.
(** 2*10^9 is halved to 10^9, which is taken for 1, so the square is returned; 10^9 + 1
    as well (a multiplication, then 10^9); -2*10^9 likewise; -10^9 is not taken for 1,
    but its sign is lost. *)
Example C88_ex_taken : power_taken 0 (2 * B) 2 /\ power_taken 0 (B + 1) 2 /\ power_taken 0 41 41 /\ power_stops 0 (2 ^ 30).
Proof.
  splits.
  - left. exists 1, 1. splits; [lia|split; [lia|split; [lia|right; split; [reflexivity|left; lia]]]| |reflexivity].
    intros j' k' L (_ & Hk & R). destruct (Z.eq_dec j' 0) as [->|]; [|lia]. exfalso.
    rewrite Z.pow_0_r, Z.div_1_r in R. destruct (Z.eq_dec k' 1) as [->|N]; [destruct R as [R|[R _]]; lia|].
    pose proof (Z.pow_le_mono_r B 2 k' ltac:(lia) ltac:(lia)). destruct R as [R|[R _]]; lia.
  - left. exists 0, 1. splits; [lia|split; [lia|split; [lia|left; reflexivity]]|intros; lia|reflexivity].
  - right. splits; auto.
    + intros j k _ (Hj & Hk & R). destruct (small_no_radix 41 ltac:(lia) j k Hj Hk). destruct R as [R|[R _]]; auto.
    + apply small_no_leads. lia.
  - split; [|exists 1; split; [lia|reflexivity]].
    intros j k _ (Hj & Hk & R).
    assert (Hh : 2 ^ 30 / 2 ^ j < B \/ j = 0).
    { destruct (Z.eq_dec j 0); auto. left. apply Z.div_lt_upper_bound; [apply Z.pow_pos_nonneg; lia|].
      assert (2 ^ 1 <= 2 ^ j) by (apply Z.pow_le_mono_r; lia). lia. }
    assert (HBk : B ^ 1 <= B ^ k) by (apply Z.pow_le_mono_r; lia).
    destruct Hh as [Hh| ->]; [destruct R as [R|[R _]]; lia|]. change (2 ^ 30 / 2 ^ 0) with 1073741824 in R.
    destruct (Z.eq_dec k 1) as [->|N]; [destruct R as [R|[R _]]; lia|].
    pose proof (Z.pow_le_mono_r B 2 k ltac:(lia) ltac:(lia)). destruct R as [R|[R _]]; lia.
Qed.
Example C88_ex : op_pow (i 3) (mkInt [0; 2] false) = Ok (i 9) /\ op_pow (i 3) (mkInt [1; 1] false) = Ok (i 9) /\
  op_pow (i 3) (mkInt [0; 2] true) = Ok (i 9) /\ op_pow (i (-1)) ten9 = Ok (i (-1)) /\
  op_pow (i 3) (mkInt [0; 4] false) = Ok (i 81) /\ op_pow (i 3) (mkInt [1; 4] false) = Ok (i 243) /\
  op_pow (i 3) (mkInt [999999999; 1] true) = Ok (i 27) /\
  F_pow (fr 2 3) (mkInt [0; 2] true) = Ok (fr 9 4) /\ F_pow_assign (fr 2 3) (mkInt [1; 2] true) = (fr 8 27, Ok tt) /\
  F_pow (fr 2 3) (mkInt [73741824; 1] true) = Abort.
Proof. vm_compute. auto 12. Qed.
Print Assumptions C88_pow_exact.
Print Assumptions C88_pow_negative_exact.
Print Assumptions C88_taken_unique.
Print Assumptions C88_frac_pow_exact.
Print Assumptions C88_frac_pow_assign_exact.
