(** C126: how many rounds the loops make for quotients and remainders, measured by the
    bins of the quotient, for powers, greatest common divisors, and everything in Frac.
    Every bound holds also when the operation ends in an exception or an assertion. *)
From Coq Require Import ZifyBool.
From Verif Require Import Base IntModel IntSpec IntBasics IntAddSub IntMul IntDiv FracModel FracProofs CostModel IntCostModel IntCostSpec IntCost IntCost2 IntCost3 IntCost4 IntCost5.
From Verif Require Import FracCostModel FracCostSpec FracCost FracCost2 FracCost3.
Import ListNotations.
Local Open Scope list_scope.
Local Open Scope Z_scope.

(** The counted operations return what the operations return. *)
Theorem C126_same_powers : forall x y o,
  fst (op_pow_c x y) = op_pow x y /\ fst (pow_assign_c x o) = pow_assign x o /\ fst (GCD_c x y) = GCD x y.
Proof. intros x y o. exact (conj (op_pow_e x y) (conj (pow_assign_e x o) (GCD_e x y))). Qed.
Print Assumptions C126_same_powers.
Theorem C126_same_operators : forall x y a t b,
  fst (Frac_make_c t b) = Frac_make t b /\ fst (reciprocal_c x) = reciprocal x /\ fst (F_eq_c x y) = F_eq x y /\ fst (F_lt_c x y) = F_lt x y /\
  fst (F_add_c x y) = F_add x y /\ fst (F_sub_c x y) = F_sub x y /\ fst (F_mul_c x y) = F_mul x y /\ fst (F_div_c x y) = F_div x y /\
  fst (IF_addsub_c op_add_c a x) = IF_add a x /\ fst (IF_addsub_c op_sub_c a x) = IF_sub a x /\ fst (IF_mul_c a x) = IF_mul a x /\ fst (IF_div_c a x) = IF_div a x /\
  fst (FI_addsub_c op_add_c x a) = FI_add x a /\ fst (FI_addsub_c op_sub_c x a) = FI_sub x a /\ fst (FI_mul_c x a) = FI_mul x a /\ fst (FI_div_c x a) = FI_div x a /\
  fst (F_pow_c x a) = F_pow x a.
Proof.
  intros x y a t b.
  exact (conj (Frac_make_e t b) (conj (Frac_make_e _ _) (conj (F_eq_e x y) (conj (F_lt_e x y) (conj (F_add_e x y) (conj (F_sub_e x y) (conj (F_mul_e x y) (conj (F_div_e x y)
    (conj (IF_add_e a x) (conj (IF_sub_e a x) (conj (IF_mul_e a x) (conj (IF_div_e a x) (conj (FI_add_e x a) (conj (FI_sub_e x a) (conj (FI_mul_e x a) (conj (FI_div_e x a) (F_pow_e x a))))))))))))))))).
Qed.
Print Assumptions C126_same_operators.
Theorem C126_same_assignments : forall x o a,
  fst (normalize_c x) = result (normalize x) /\
  fst (F_add_assign_c x o) = result (F_add_assign x o) /\ fst (F_sub_assign_c x o) = result (F_sub_assign x o) /\
  fst (F_mul_assign_c x o) = result (F_mul_assign x o) /\ fst (F_div_assign_c x o) = result (F_div_assign x o) /\
  fst (FI_addsub_assign_c add_assign_c x a) = result (FI_add_assign x a) /\ fst (FI_addsub_assign_c sub_assign_c x a) = result (FI_sub_assign x a) /\
  fst (FI_mul_assign_c x a) = result (FI_mul_assign x a) /\ fst (FI_div_assign_c x a) = result (FI_div_assign x a) /\
  fst (F_pow_assign_c x a) = result (F_pow_assign x a).
Proof.
  intros x o a.
  exact (conj (normalize_e x) (conj (F_add_assign_e x o) (conj (F_sub_assign_e x o) (conj (F_mul_assign_e x o) (conj (F_div_assign_e x o)
    (conj (FI_add_assign_e x a) (conj (FI_sub_assign_e x a) (conj (FI_mul_assign_e x a) (conj (FI_div_assign_e x a) (F_pow_assign_e x a)))))))))).
Qed.
Print Assumptions C126_same_assignments.

(** A divisor without leading zero bins: only the bins the quotient can have are
    searched for, so numbers of the same length are divided in quadratically many rounds (C119 has
    a cubic bound here). *)
Theorem C126_quotient : forall x y, wf x -> wf y -> trimmed (bins y) ->
  let n := limbs x in let m := limbs y in
  snd (op_div_c x y) <= Z.max 0 (n - m + 1) * (89 * m ^ 2 + 2370 * m + 5106) + n * (2 * m + 9) + 4 * m.
Proof.
  intros x y Hx Hy Ty n m. eapply Z.le_trans; [exact (proj1 (op_div_fine x y Hx Hy Ty))|]. apply Z.eq_le_incl.
  unfold searched, one_bin. change (IntCostModel.len (bins x)) with n. change (IntCostModel.len (bins y)) with m. ring.
Qed.
Print Assumptions C126_quotient.
Theorem C126_remainder : forall x y, wf x -> wf y -> trimmed (bins y) ->
  let n := limbs x in let m := limbs y in let k := Z.max n m + 1 in
  snd (op_mod_c x y) <= Z.max 1 (n - m + 1) * (89 * m ^ 2 + 2379 * m + 5112 + m * k) + n * (2 * m + 11) + 6 * m + 54 * k + 135.
Proof.
  intros x y Hx Hy Ty n m k. eapply Z.le_trans; [exact (proj1 (op_mod_fine x y Hx Hy Ty))|]. apply Z.eq_le_incl.
  unfold remainder_fine, one_bin. change (IntCostModel.len (bins x)) with n. change (IntCostModel.len (bins y)) with m. fold k. ring.
Qed.
Print Assumptions C126_remainder.

(** A power x^e of a number of n bins: at most as many rounds as a few products of
    numbers of e * n bins, and 28 for every bin of the exponent and level of the recursion. *)
Theorem C126_power : forall x y, canonical x -> wf y -> negative y = false ->
  snd (op_pow_c x y) <= power (val y * limbs x) (val y) (limbs y).
Proof.
  intros x y Cx Wy Ny. rewrite (val_nonneg_aval y Ny). exact (proj1 (op_pow_sp x y Cx Wy Ny)).
Qed.
Print Assumptions C126_power.

(** Greatest common divisors and the reduction of a fraction are cubic. *)
Theorem C126_gcd : forall x y n, okrep x -> okrep y -> limbs x <= n -> limbs y <= n -> snd (GCD_c x y) <= divisor n.
Proof. intros x y n Hx Hy Lx Ly. exact (proj1 (GCD_sp x y n Hx Hy Lx Ly)). Qed.
Print Assumptions C126_gcd.
Theorem C126_reduction : forall f n, okrep (top f) -> okrep (bot f) -> limbs (top f) <= n -> limbs (bot f) <= n -> snd (normalize_c f) <= reduction n.
Proof. intros f n Ht Hb Lt Lb. exact (proj1 (normalize_sp f n Ht Hb Lt Lb)). Qed.
Print Assumptions C126_reduction.

(** Frac with Frac: parts of at most n bins. *)
Theorem C126_frac : forall x y n, frac_fits n x -> frac_fits n y ->
  snd (F_eq_c x y) <= 4 * n /\ snd (F_lt_c x y) <= 2 * product n + 4 * n /\
  snd (F_add_c x y) <= 3 * product n + sum (2 * n) + reduction (2 * n + 1) + 3 * (2 * n + 1) /\
  snd (F_sub_c x y) <= 3 * product n + sum (2 * n) + reduction (2 * n + 1) + 3 * (2 * n + 1) /\
  snd (F_mul_c x y) <= 2 * product n + reduction (2 * n) + 6 * n /\
  snd (F_div_c x y) <= 2 * product n + reduction (2 * n) + 6 * n /\
  snd (reciprocal_c x) <= reduction n + 3 * n.
Proof.
  intros x y n Hx Hy. pose proof (proj1 (F_eq_sp n x y Hx Hy)). pose proof (proj1 (F_lt_sp n x y Hx Hy)). pose proof (proj1 (F_addsub_sp n x y Hx Hy false)). pose proof (proj1 (F_addsub_sp n x y Hx Hy true)).
  pose proof (proj1 (F_mul_sp n x y Hx Hy)). pose proof (proj1 (F_div_sp n x y Hx Hy)). pose proof (proj1 (reciprocal_sp n x Hx)).
  change (F_addsub_c (addsub_c 3 false) x y) with (F_add_c x y) in *. change (F_addsub_c (addsub_c 3 true) x y) with (F_sub_c x y) in *. lia.
Qed.
Print Assumptions C126_frac.
(** Frac with Int. *)
Theorem C126_int : forall x a n, frac_fits n x -> fits_in n a ->
  (forall add, In add [op_add_c; op_sub_c] ->
     snd (IF_addsub_c add a x) <= product n + sum (2 * n) + reduction (2 * n + 1) + 3 * (2 * n + 1) /\
     snd (FI_addsub_c add x a) <= product n + sum (2 * n) + reduction (2 * n + 1) + 3 * (2 * n + 1)) /\
  snd (IF_mul_c a x) <= product n + reduction (2 * n) + 6 * n /\ snd (IF_div_c a x) <= product n + reduction (2 * n) + 6 * n /\
  snd (FI_mul_c x a) <= product n + reduction (2 * n) + 6 * n /\ snd (FI_div_c x a) <= product n + reduction (2 * n) + 6 * n.
Proof.
  intros x a n Hx Ha. pose proof (FI_muldiv_sp n x a Hx Ha) as ([M1 _] & [M2 _] & [M3 _] & [M4 _]).
  split; [|lia]. intros add [<-|[<-|[]]].
  - pose proof (proj1 (IF_addsub_sp n x a Hx Ha false)). pose proof (proj1 (FI_addsub_sp n x a Hx Ha false)).
    change (IF_addsub_c (addsub_c 3 false) a x) with (IF_addsub_c op_add_c a x) in *. change (FI_addsub_c (addsub_c 3 false) x a) with (FI_addsub_c op_add_c x a) in *. lia.
  - pose proof (proj1 (IF_addsub_sp n x a Hx Ha true)). pose proof (proj1 (FI_addsub_sp n x a Hx Ha true)).
    change (IF_addsub_c (addsub_c 3 true) a x) with (IF_addsub_c op_sub_c a x) in *. change (FI_addsub_c (addsub_c 3 true) x a) with (FI_addsub_c op_sub_c x a) in *. lia.
Qed.
Print Assumptions C126_int.
(** Compound assignments, also to the same object. *)
Theorem C126_assignments : forall x o n, frac_fits n x -> frac_fits n (rd x o) ->
  snd (F_add_assign_c x o) <= 3 * product n + sum (2 * n) + reduction (2 * n + 1) /\
  snd (F_sub_assign_c x o) <= 3 * product n + sum (2 * n) + reduction (2 * n + 1) /\
  snd (F_mul_assign_c x o) <= 2 * product n + reduction (2 * n) /\
  snd (F_div_assign_c x o) <= 2 * product n + reduction (2 * n) + n.
Proof.
  intros x o n Hx Ho. pose proof (proj1 (F_addsub_assign_sp n x o Hx Ho false)). pose proof (proj1 (F_addsub_assign_sp n x o Hx Ho true)).
  pose proof (proj1 (F_mul_assign_sp n x o Hx Ho)). pose proof (proj1 (F_div_assign_sp n x o Hx Ho)).
  change (F_addsub_assign_c (addsub_c 3 false) x o) with (F_add_assign_c x o) in *. change (F_addsub_assign_c (addsub_c 3 true) x o) with (F_sub_assign_c x o) in *. lia.
Qed.
Print Assumptions C126_assignments.
Theorem C126_int_assignments : forall x a n, frac_fits n x -> fits_in n a ->
  snd (FI_addsub_assign_c add_assign_c x a) <= product n + sum (2 * n) + reduction (2 * n + 1) /\
  snd (FI_addsub_assign_c sub_assign_c x a) <= product n + sum (2 * n) + reduction (2 * n + 1) /\
  snd (FI_mul_assign_c x a) <= product n + reduction (2 * n) /\ snd (FI_div_assign_c x a) <= product n + reduction (2 * n).
Proof.
  intros x a n Hx Ha. pose proof (FI_muldiv_assign_sp n x a Hx Ha) as ([M1 _] & [M2 _]).
  pose proof (proj1 (FI_addsub_assign_sp n x a Hx Ha false)). pose proof (proj1 (FI_addsub_assign_sp n x a Hx Ha true)).
  change (FI_addsub_assign_c (addsub_assign_c 3 false) x a) with (FI_addsub_assign_c add_assign_c x a) in *. change (FI_addsub_assign_c (addsub_assign_c 3 true) x a) with (FI_addsub_assign_c sub_assign_c x a) in *. lia.
Qed.
Print Assumptions C126_int_assignments.
(** Powers of fractions, with the exponent's absolute value e of l bins. *)
Theorem C126_frac_power : forall x a n, frac_fits n x -> wf a ->
  let e := Z.abs (val a) in let l := limbs a in let s := Z.max 1 (e * n) in
  snd (F_pow_c x a) <= 2 * power (e * n) e l + reduction s + 3 * s + 2 * l /\
  snd (F_pow_assign_c x a) <= 2 * power (e * n) e l + reduction s + 3 * s + 2 * l.
Proof.
  intros x a n Hx Wa e l s. unfold s, e. rewrite (abs_val a Wa). pose proof (proj1 (F_pow_sp n x a Hx Wa)) as P1. pose proof (proj1 (F_pow_assign_sp n x a Hx Wa)) as P2.
  unfold power_of in *. change (IntCostModel.len (bins a)) with l in *. lia.
Qed.
Print Assumptions C126_frac_power.

Definition fr (a b : Z) : Frac := mkFrac (mkInt [Z.abs a] (a <? 0)) (mkInt [b] false).
Example C126_sums : (F_add (fr 1 6) (fr 1 10), snd (F_add_c (fr 1 6) (fr 1 10)), snd (F_add_assign_c (fr 1 6) (Some (fr 1 10))), snd (F_lt_c (fr 1 6) (fr 1 10))) = (Ok (fr 4 15), 2421, 2419, 15).
Proof. vm_compute. reflexivity. Qed.
Example C126_divisors : (GCD (mkInt [144] false) (mkInt [89] true), snd (GCD_c (mkInt [144] false) (mkInt [89] true)), snd (GCD_c (mkInt [144] false) (mkInt [72] true))) = (Ok (mkInt [1] false), 4716, 516).
Proof. vm_compute. reflexivity. Qed.
Example C126_powers : (snd (op_pow_c (mkInt [0; 1] true) (mkInt [9] false)), power (9 * 2) 9 1) = (341, 7946).
Proof. vm_compute. reflexivity. Qed.
Example C126_quotients : (snd (op_div_c (mkInt (repeat 999999999 5) false) (mkInt (repeat 7 5) false)), 1 * (89 * 5 ^ 2 + 2370 * 5 + 5106) + 5 * 19 + 20) = (3186, 19296).
Proof. vm_compute. reflexivity. Qed.
Example C126_failing : (F_div (fr 2 3) (fr 0 1), snd (F_div_c (fr 2 3) (fr 0 1)), snd (F_pow_c (fr 2 3) (mkInt [5] true)), snd (F_div_assign_c (fr 2 3) None)) = (Throw DivideByZero, 16, 3440, 1382).
Proof. vm_compute. reflexivity. Qed.
Example C126_fits : frac_fits 1 (fr (-3) 4) /\ fits_in 2 (mkInt [0; 7] true) /\ okrep (mkInt [0; 0] true) /\ (divisor 1, reduction 2) = (360665, 1013030).
Proof.
  unfold frac_fits, fits_in, canonical, okrep, wf, trimmed, digit_ok, limbs. cbn.
  repeat split; try lia; try discriminate; repeat constructor; try (vm_compute; discriminate); try reflexivity; try (intros; discriminate).
  all: try (intro A; exfalso; apply A; reflexivity).
Qed.
