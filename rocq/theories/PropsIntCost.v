(** C119: how many rounds the loops of Int's arithmetic make, counted in the bins of the
    operands. Every bound holds also when the operation ends in an exception or an
    assertion. *)
From Coq Require Import ZifyBool.
From Verif Require Import Base IntModel IntSpec IntBasics IntAddSub IntMul IntDiv CostModel IntCostModel IntCostSpec IntCost IntCost2 IntCost3 IntCost4.
Import ListNotations.
Local Open Scope list_scope.
Local Open Scope Z_scope.

(** The counted operations return what the operations return. *)
Theorem C119_same : forall x y (o : option Int),
  fst (op_neg_c x) = op_neg x /\ fst (abs_c x) = abs_Int x /\
  fst (lt_c x y) = op_lt x y /\ fst (gt_c x y) = op_gt x y /\ fst (le_c x y) = op_le x y /\ fst (ge_c x y) = op_ge x y /\
  fst (op_add_c x y) = op_add x y /\ fst (op_sub_c x y) = op_sub x y /\ fst (op_mul_c x y) = op_mul x y /\
  fst (op_div_c x y) = op_div x y /\ fst (op_mod_c x y) = op_mod x y /\
  fst (add_assign_c x o) = add_assign x o /\ fst (sub_assign_c x o) = sub_assign x o /\ fst (mul_assign_c x o) = mul_assign x o /\
  fst (div_assign_c x o) = div_assign x o /\ fst (mod_assign_c x o) = mod_assign x o.
Proof.
  intros x y o.
  exact (conj (op_neg_e x) (conj (abs_e x) (conj (lt_e x y) (conj (gt_e x y) (conj (le_e x y) (conj (ge_e x y) (conj (op_add_e x y) (conj (op_sub_e x y)
    (conj (op_mul_e x y) (conj (op_div_e x y) (conj (op_mod_e x y) (conj (add_assign_e x o) (conj (sub_assign_e x o) (conj (mul_assign_e x o)
    (conj (div_assign_e x o) (mod_assign_e x o)))))))))))))))).
Qed.
Print Assumptions C119_same.

(** Comparisons, sums and differences are linear in the longer operand. *)
Theorem C119_linear : forall x y (o : option Int) n, 1 <= n -> limbs x <= n -> limbs y <= n -> limbs (rd x o) <= n ->
  (snd (lt_c x y) <= 2 * n /\ snd (gt_c x y) <= 2 * n /\ snd (le_c x y) <= 2 * n /\ snd (ge_c x y) <= 2 * n) /\
  snd (op_neg_c x) <= 2 * n /\ snd (abs_c x) <= 4 * n /\
  snd (op_add_c x y) <= 26 * n /\ snd (op_sub_c x y) <= 26 * n /\
  snd (add_assign_c x o) <= 23 * n /\ snd (sub_assign_c x o) <= 23 * n.
Proof.
  intros x y o n N Hx Hy Ho.
  exact (conj (conj (proj1 (lt_sp x y n N Hx Hy)) (conj (proj1 (gt_sp x y n N Hx Hy)) (conj (proj1 (le_sp x y n N Hx Hy)) (proj1 (ge_sp x y n N Hx Hy)))))
    (conj (proj1 (op_neg_sp x n N Hx)) (conj (proj1 (abs_sp x n N Hx)) (conj (proj1 (addsub_sp _ _ x y n N Hx Hy)) (conj (proj1 (addsub_sp _ _ x y n N Hx Hy))
    (conj (proj1 (addsub_assign_sp _ _ x o n N Hx Ho)) (proj1 (addsub_assign_sp _ _ x o n N Hx Ho)))))))).
Qed.
Print Assumptions C119_linear.

(** Products are cubic: m * n^2 and lower terms, with n the bins of the first factor of
    [*=] and of the longer factor of [*]. The square of the length of one factor comes
    from multiply_by_int, which adds a number as long as the factor for every bin. *)
Theorem C119_product : forall x y, wf x -> wf y ->
  let n := Z.max (limbs x) (limbs y) in let m := Z.min (limbs x) (limbs y) in
  snd (op_mul_c x y) <= m * (n ^ 2 + 8 * n + m + 6) + (n + m + 2) /\
  (full x -> full y -> m * (n ^ 2 + 5 * n + m) <= snd (op_mul_c x y)).
Proof.
  intros x y Hx Hy n m. rewrite Z.pow_2_r. split; [exact (proj1 (op_mul_sp x y Hx Hy))|].
  intros [_ Fx] [_ Fy]. destruct (op_mul_gen x y Hx Hy) as (r & E & _). rewrite <- op_mul_e in E. exact (proj1 (op_mul_co x y Fx Fy r E)).
Qed.
Print Assumptions C119_product.
Theorem C119_product_assign : forall x (o : option Int), wf x -> wf (rd x o) ->
  let n := limbs x in let m := limbs (rd x o) in
  snd (mul_assign_c x o) <= m * (n ^ 2 + 8 * n + m + 6) /\
  (full x -> full (rd x o) -> m * (n ^ 2 + 5 * n + m) <= snd (mul_assign_c x o)).
Proof.
  intros x o Hx Ho n m. rewrite Z.pow_2_r. split; [exact (proj1 (mul_assign_sp x o Hx Ho))|].
  intros [_ Fx] [_ Fy]. destruct (mul_assign_ok x o Hx) as (r & E & _); [intros y ->; exact Ho|]. rewrite <- mul_assign_e in E. exact (proj1 (mul_assign_co x o Fx Fy r E)).
Qed.
Print Assumptions C119_product_assign.

(** So [*], which passes the longer factor first (src/Int.cpp:172-175), chooses the dearer order:
    with one factor at least twice as long as the other, [*=] onto the shorter one takes
    fewer rounds than either order of [*], although the two products are the same. *)
Theorem C119_dearer_order : forall x y, wf x -> wf y -> full x -> full y -> 6 <= limbs y -> 2 * limbs y <= limbs x ->
  snd (mul_assign_c y (Some x)) <= snd (op_mul_c x y) /\ snd (mul_assign_c y (Some x)) <= snd (op_mul_c y x).
Proof.
  intros x y Hx Hy Fx Fy M N. pose proof (proj1 (C119_product_assign y (Some x) Hy Hx)) as U.
  pose proof (proj2 (C119_product x y Hx Hy) Fx Fy) as L1. pose proof (proj2 (C119_product y x Hy Hx) Fy Fx) as L2.
  cbn [rd] in U. rewrite Z.max_l, Z.min_r in L1 by lia. rewrite Z.max_r, Z.min_l in L2 by lia.
  set (n := limbs x) in *. set (m := limbs y) in *. rewrite !Z.pow_2_r in *.
  assert (n * (m * m + 8 * m + n + 6) <= m * (n * n + 5 * n + m)); [|lia].
  assert (0 <= (n - 2 * m) * n * (m - 1)) by (apply Z.mul_nonneg_nonneg; [apply Z.mul_nonneg_nonneg|]; lia).
  assert (0 <= n * (m - 6) * (m + 1)) by (apply Z.mul_nonneg_nonneg; [apply Z.mul_nonneg_nonneg|]; lia).
  nia.
Qed.
Print Assumptions C119_dearer_order.

(** Quotients: at most n * (89 m^2 + ...) rounds, and at least 29 * m * (m + 2) for every
    bin of the quotient that is not zero if no bin of the divisor is. *)
Lemma used_nonzeros x : used x = nonzeros (bins x).
Proof.
  unfold used. generalize (bins x). intros l. induction l as [|b l IH]; [reflexivity|]. cbn [List.filter nonzeros].
  destruct (b =? 0); cbn [negb length]; lia.
Qed.
Theorem C119_quotient : forall x y, wf x -> wf y ->
  let n := limbs x in let m := limbs y in
  snd (op_div_c x y) <= n * (89 * m ^ 2 + 2372 * m + 5112) + 3 * n + 4 * m /\
  (full y -> forall q, op_div x y = Ok q -> 29 * m * (m + 2) * used q <= snd (op_div_c x y)).
Proof.
  intros x y Hx Hy n m. split.
  - eapply Z.le_trans; [exact (proj1 (op_div_sp x y Hx Hy))|]. apply Z.eq_le_incl. unfold round, one_bin. fold n m. change (len (bins x)) with n. change (len (bins y)) with m. ring.
  - intros [_ Fy] q E. rewrite <- op_div_e in E. rewrite used_nonzeros. rewrite <- (Z.mul_assoc 29). exact (op_div_co x y Fy q E).
Qed.
Print Assumptions C119_quotient.
Theorem C119_quotient_assign : forall x (o : option Int), wf x -> wf (rd x o) ->
  let n := limbs x in let m := limbs (rd x o) in
  snd (div_assign_c x o) <= n * (89 * m ^ 2 + 2372 * m + 5112) + 2 * n + 5 * m.
Proof.
  intros x o Hx Ho n m. eapply Z.le_trans; [exact (proj1 (div_assign_sp x o Hx Ho))|]. apply Z.eq_le_incl.
  unfold round, one_bin. change (len (bins x)) with n. change (len (bins (rd x o))) with m. ring.
Qed.
Print Assumptions C119_quotient_assign.

(** Remainders take a quotient and a product: as many rounds as these and linear terms. *)
Theorem C119_remainder : forall x y, wf x -> wf y ->
  let n := limbs x in let m := limbs y in let k := Z.max n m in
  snd (op_mod_c x y) <= n * (89 * m ^ 2 + 2372 * m + 5112) + m * (k ^ 2 + 8 * k + m + 6) + k + 58 * n + 60 * m + 135.
Proof.
  intros x y Hx Hy n m k. eapply Z.le_trans; [exact (proj1 (op_mod_sp x y Hx Hy))|]. apply Z.eq_le_incl.
  unfold remainder_rounds, round, one_bin. change (len (bins x)) with n. change (len (bins y)) with m. fold k. ring.
Qed.
Print Assumptions C119_remainder.

(** 3 bins times 2 bins, both orders, and 3 bins by 2 bins. *)
Definition three := mkInt [111; 222; 333] false.
Definition two := mkInt [44; 55] true.
Example C119_sums : (snd (op_add_c three two), snd (add_assign_c three (Some two)), snd (lt_c three two)) = (17, 14, 1).
Proof. vm_compute. reflexivity. Qed.
Example C119_products : (snd (op_mul_c three two), snd (op_mul_c two three), snd (mul_assign_c three (Some two)), snd (mul_assign_c two (Some three))) = (53, 53, 52, 51).
Proof. vm_compute. reflexivity. Qed.
Example C119_quotients : (op_div three two, snd (op_div_c three two), snd (op_mod_c three two)) = (Ok (mkInt [54545453; 6] true), 2511, 2593).
Proof. vm_compute. reflexivity. Qed.
(** 12 bins times 6 bins and the other way round. *)
Definition twelve := mkInt (repeat 999999999 12) false.
Definition six := mkInt (repeat 999999999 6) false.
Example C119_orders : (snd (op_mul_c twelve six), snd (op_mul_c six twelve), snd (mul_assign_c six (Some twelve))) = (1494, 1494, 1188).
Proof. vm_compute. reflexivity. Qed.
Example C119_orders_apply : full twelve /\ full six /\ 6 <= limbs six /\ 2 * limbs six <= limbs twelve.
Proof. unfold full, limbs, twelve, six. cbn [bins repeat length]. repeat split; try discriminate; repeat constructor; lia. Qed.
(** A division that fails has made rounds too. *)
Example C119_failing : (op_div (mkInt [5; 0; 1] false) (mkInt [0; 2] false), snd (op_div_c (mkInt [5; 0; 1] false) (mkInt [0; 2] false))) = (Abort, 13).
Proof. vm_compute. reflexivity. Qed.
