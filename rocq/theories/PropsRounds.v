(** C106: how large results are and how many rounds the loops take. *)
From Coq Require Import ZifyBool.
From Verif Require Import Base IntModel IntSpec IntBasics IntAddSub IntMul IntDiv IntMod FracModel FracProofs IntSize PropsInt PropsFrac.

(** The number of bins is the number of nine-digit groups of the absolute value. *)
Theorem C106_bins : forall x, canonical x -> val x <> 0 ->
  10 ^ (9 * (Z.of_nat (List.length (bins x)) - 1)) <= Z.abs (val x) < 10 ^ (9 * Z.of_nat (List.length (bins x))).
Proof. exact size_window. Qed.

Definition len (x : Int) : Z := Z.of_nat (List.length (bins x)).
Theorem C106_sum : forall x y r, canonical x -> canonical y -> op_add x y = Ok r \/ op_sub x y = Ok r ->
  len r <= Z.max (len x) (len y) + 1.
Proof.
  intros x y r Cx Cy [E|E].
  - destruct (op_add_ok x y) as (r' & E' & Cr & V); auto. rewrite E in E'. injection E' as <-. apply (add_size x y r); auto. lia.
  - destruct (op_sub_ok x y) as (r' & E' & Cr & V); auto. rewrite E in E'. injection E' as <-. apply (add_size x y r); auto. lia.
Qed.
Theorem C106_product : forall x y r, canonical x -> canonical y -> val x <> 0 -> val y <> 0 -> op_mul x y = Ok r ->
  len x + len y - 1 <= len r <= len x + len y.
Proof.
  intros x y r Cx Cy Nx Ny E. destruct (op_mul_ok x y) as (r' & E' & Cr & V); auto. rewrite E in E'. injection E' as <-.
  apply (mul_size x y r); auto.
Qed.
Theorem C106_quotient : forall x y r, canonical x -> canonical y -> val y <> 0 -> Z.abs (val y) <= Z.abs (val x) -> op_div x y = Ok r ->
  len x - len y <= len r <= len x - len y + 1.
Proof.
  intros x y r Cx Cy Ny L E. destruct (C12_division_partial x y r Cx Cy Ny E) as [Cr V]. apply (div_size x y r); auto.
Qed.
Theorem C106_remainder : forall x y r, canonical x -> canonical y -> val y <> 0 -> op_mod x y = Ok r -> len r <= len y.
Proof.
  intros x y r Cx Cy Ny E. destruct (C15_modulus x y Cx Cy Ny) as [H1 H2].
  destruct (div_safe_dec (Z.abs (val x)) (Z.abs (val y))) as [D|D]; [lia| |].
  - destruct (H1 D) as (r' & E' & Cr & _ & V). rewrite E in E'. injection E' as <-. apply (mod_size y r); auto. lia.
  - rewrite (H2 D) in E. discriminate.
Qed.
Theorem C106_power : forall x y r, canonical x -> canonical y -> 0 < val y < 10 ^ 9 -> op_pow x y = Ok r -> len r <= val y * len x.
Proof.
  intros x y r Cx Cy P E. destruct (C18_pow_below_radix x y Cx Cy ltac:(lia)) as (r' & E' & Cr & V).
  rewrite E in E'. injection E' as <-. apply (pow_size x r (val y)); auto. lia.
Qed.

(** Lame's bound: when the smaller number has at most k decimal digits, the loop of
    nochecks_gcd divides at most 5k times. *)
Theorem C106_gcd_rounds : forall a b k, canonical a -> canonical b -> 0 <= val b <= val a -> val b < 10 ^ Z.of_nat k ->
  gcd_loop (5 * k + 1) a b = nochecks_gcd a b /\ nochecks_gcd a b <> OutOfFuel.
Proof.
  intros a b k Ca Cb V K. assert (E := gcd_rounds a b k (canonical_okrep _ Ca) (canonical_okrep _ Cb) V K).
  split; [exact E|]. rewrite <- E. replace (5 * k + 1)%nat with (S (5 * k)) by lia. apply gcd_loop_lame; auto.
  left. pose proof (fib_tens k) as F. replace (5 * k + 2)%nat with (S (S (5 * k))) in F by lia. lia.
Qed.
(** The bound is reached: 8 has one digit and five divisions are needed. *)
Example C106_ex_gcd : gcd_loop 5 (i 13) (i 8) = OutOfFuel /\ gcd_loop 6 (i 13) (i 8) = Ok (i 1) /\
  gcd_loop 10 (i 144) (i 89) = OutOfFuel /\ gcd_loop 11 (i 144) (i 89) = Ok (i 1).
Proof. vm_compute. splits; reflexivity. Qed.

(** Exponents below 2^(k+1): at most 2k nested calls below the outermost. *)
Theorem C106_power_depth : forall x y k, canonical x -> canonical y -> 0 <= val y < 2 ^ Z.of_nat (S k) ->
  exponentiate (2 * k + 1) x y = op_pow x y /\ op_pow x y <> OutOfFuel.
Proof.
  intros x y k Cx Cy P. assert (E := pow_depth x y k Cx Cy P). split; [exact E|]. rewrite <- E.
  assert (Ny : nonneg y). { unfold nonneg. rewrite (canonical_neg_eq y Cy). lia. }
  destruct (pow_halving x Cx k y ltac:(auto) Ny) as [[R|(r & R & _)] _].
  - rewrite <- (val_nonneg_aval y Ny). lia.
  - rewrite R. discriminate.
  - rewrite R. discriminate.
Qed.
Example C106_ex_power : exponentiate 6 (i 2) (i 15) = OutOfFuel /\ exponentiate 7 (i 2) (i 15) = Ok (i 32768).
Proof. vm_compute. split; reflexivity. Qed.

(** One bin of a quotient: at most 29 halvings of the step with at most three trial
    products each. *)
Theorem C106_search : forall y x r, wf x -> canonical y -> 0 <= val y -> 0 < aval x -> aval x <= val y < 10 ^ 9 * aval x ->
  qr_search 3 29 y x BIN_LIMIT 0 r = qr_loop 32 y x BIN_LIMIT 0 r /\ qr_loop 32 y x BIN_LIMIT 0 r <> OutOfFuel.
Proof.
  intros y x r Hx Cy Py Px L.
  assert (Ny : nonneg y). { unfold nonneg. rewrite (canonical_neg_eq y Cy). lia. }
  rewrite (val_nonneg_aval y Ny) in *. change (10 ^ 9) with B in L.
  set (Q := aval y / aval x).
  assert (HQ1 : 1 <= Q) by (apply Z.div_le_lower_bound; lia).
  assert (HQ2 : Q < B) by (apply Z.div_lt_upper_bound; lia).
  split.
  - apply (qr_search_spec y x Q); auto; unfold BIN_LIMIT; lia.
  - destruct (qr_loop_spec y x Q Hx ltac:(auto) ltac:(apply Cy) Ny Px eq_refl HQ2 32 B 0 r) as (r' & E & _); try lia.
    change BIN_LIMIT with B. rewrite E. discriminate.
Qed.
Example C106_ex_search : qr_search 2 29 (i 999999999) (i 1) BIN_LIMIT 0 (i 0) = OutOfFuel /\
  qr_search 3 29 (i 999999999) (i 1) BIN_LIMIT 0 (i 0) = Ok (999999998, i 0) /\
  qr_search 3 28 (i 999999999) (i 1) BIN_LIMIT 0 (i 0) = OutOfFuel.
Proof. vm_compute. splits; reflexivity. Qed.

(** All the bounds on sizes are reached. *)
Example C106_ex_sizes :
  let a := mkInt [999999999; 999999999] false in let t := mkInt [0; 1] false in
  op_add a (i 1) = Ok (mkInt [0; 0; 1] false) /\ op_sub a (i (-1)) = Ok (mkInt [0; 0; 1] false) /\
  op_mul a a = Ok (mkInt [1; 0; 999999998; 999999999] false) /\ op_mul t t = Ok (mkInt [0; 0; 1] false) /\
  op_div a (i 2) = Ok (mkInt [999999999; 499999999] false) /\
  op_div (mkInt [5; 1] false) (i 7) = Ok (i 142857143) /\
  op_mod (i 5) a = Ok (i 5) /\ op_mod (i (-5)) a = Ok (mkInt [999999994; 999999999] false) /\
  op_pow (i 999999999) (i 3) = Ok (mkInt [999999999; 2; 999999997] false).
Proof. vm_compute. splits; reflexivity. Qed.

Print Assumptions C106_bins.
Print Assumptions C106_sum.
Print Assumptions C106_product.
Print Assumptions C106_quotient.
Print Assumptions C106_remainder.
Print Assumptions C106_power.
Print Assumptions C106_gcd_rounds.
Print Assumptions C106_power_depth.
Print Assumptions C106_search.
