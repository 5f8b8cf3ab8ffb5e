(** The counted powers and the counted class Frac: erasure and bounds. *)
From Coq Require Import ZifyBool.
From Verif Require Import Base IntModel IntSpec IntBasics IntAddSub IntMul IntDiv IntMod IntSize FracModel FracProofs.
From Verif Require Import CostModel CostProofs IntCostModel IntCost IntCost2 IntCost3 IntCost4 IntCost5 FracCostModel FracCostSpec.
Local Open Scope list_scope.
Local Open Scope Z_scope.

(** *** Erasure *)
Lemma dbi_loop_e xs : forall y r acc, fst (dbi_loop_c xs y r acc) = dbi_loop xs y r acc.
Proof. induction xs as [|x xs IH]; intros; [reflexivity|]. cbn [dbi_loop_c dbi_loop]. erases; apply IH. Qed.
#[export] Hint Resolve dbi_loop_e : erase.
Lemma divide_by_int_e x y n : fst (divide_by_int_c x y n) = divide_by_int x y n.
Proof. unfold divide_by_int_c, divide_by_int. erases. Qed.
Lemma equals_e' x v : fst (equals_c x v) = equals_int32 x v. Proof. reflexivity. Qed.
#[export] Hint Resolve divide_by_int_e equals_e' op_mod_e : erase.
Lemma exponentiate_e f : forall x y, fst (exponentiate_c f x y) = exponentiate f x y.
Proof. induction f as [|f IH]; intros x y; [reflexivity|]. cbn [exponentiate_c exponentiate]. erases; apply IH. Qed.
Lemma op_pow_e x y : fst (op_pow_c x y) = op_pow x y. Proof. apply exponentiate_e. Qed.
Lemma pow_assign_e x o : fst (pow_assign_c x o) = pow_assign x o. Proof. apply op_pow_e. Qed.
#[export] Hint Resolve op_pow_e pow_assign_e div_assign_e : erase.
Lemma gcd_loop_e f : forall a b, fst (gcd_loop_c f a b) = gcd_loop f a b.
Proof. induction f as [|f IH]; intros x y; [reflexivity|]. cbn [gcd_loop_c gcd_loop]. erases; apply IH. Qed.
#[export] Hint Resolve gcd_loop_e : erase.
Lemma nochecks_gcd_e x y : fst (nochecks_gcd_c x y) = nochecks_gcd x y.
Proof. unfold nochecks_gcd_c, nochecks_gcd. erases. Qed.
#[export] Hint Resolve nochecks_gcd_e : erase.
Lemma GCD_e x y : fst (GCD_c x y) = GCD x y.
Proof. unfold GCD_c, GCD. erases. Qed.
#[export] Hint Resolve GCD_e : erase.
Lemma result_top f m k : result (fthen (set_top f m) k) = (t <- m ;; result (k (mkFrac t (bot f)))).
Proof. destruct m; reflexivity. Qed.
Lemma result_bot f m k : result (fthen (set_bot f m) k) = (b <- m ;; result (k (mkFrac (top f) b))).
Proof. destruct m; reflexivity. Qed.
Lemma result_then p k : result (fthen p k) = (f <- result p ;; result (k f)).
Proof. destruct p as [f []]; reflexivity. Qed.
Lemma result_match f (m : res Int) k : result (match m with Ok c => k c | Throw e => fail_with f (@Throw Int e) | Abort => fail_with f (@Abort Int) | UB => fail_with f (@UB Int) | OutOfFuel => fail_with f (@OutOfFuel Int) end) = (c <- m ;; result (k c)).
Proof. destruct m; reflexivity. Qed.
Lemma normalize_e f : fst (normalize_c f) = result (normalize f).
Proof.
  unfold normalize_c, normalize. rewrite result_then. apply fst_cbind.
  - destruct (is_negative (bot f)); [|reflexivity]. rewrite result_bot. apply fst_cbind; [apply negate_e|intros b]. cbn [top bot].
    rewrite <- negate_e. destruct (negate_c (top f)) as [[] ?]; reflexivity.
  - intros g. rewrite result_match. apply fst_cbind; [apply GCD_e|intros c]. rewrite result_top. apply fst_cbind; [apply div_assign_e|intros t]. cbn [top bot].
    rewrite <- div_assign_e. destruct (div_assign_c (bot g) (Some c)) as [[] ?]; reflexivity.
Qed.
#[export] Hint Resolve normalize_e : erase.
Lemma Frac_make_e t b : fst (Frac_make_c t b) = Frac_make t b.
Proof. unfold Frac_make_c, Frac_make. erases. Qed.
#[export] Hint Resolve Frac_make_e : erase.
Lemma eq_e x y : fst (eq_c x y) = op_eq x y. Proof. unfold eq_c, op_eq. erases. Qed.
#[export] Hint Resolve eq_e : erase.
Lemma F_eq_e x y : fst (F_eq_c x y) = F_eq x y. Proof. unfold F_eq_c, F_eq. erases. Qed.
Lemma F_lt_e x y : fst (F_lt_c x y) = F_lt x y. Proof. unfold F_lt_c, F_lt. erases. Qed.
Lemma F_add_e x y : fst (F_add_c x y) = F_add x y. Proof. unfold F_add_c, F_addsub_c, F_add. erases. Qed.
Lemma F_sub_e x y : fst (F_sub_c x y) = F_sub x y. Proof. unfold F_sub_c, F_addsub_c, F_sub. erases. Qed.
Lemma F_mul_e x y : fst (F_mul_c x y) = F_mul x y. Proof. unfold F_mul_c, F_mul. erases. Qed.
Lemma F_div_e x y : fst (F_div_c x y) = F_div x y. Proof. unfold F_div_c, F_div. erases. Qed.
Lemma IF_add_e a x : fst (IF_addsub_c op_add_c a x) = IF_add a x. Proof. unfold IF_addsub_c, IF_add. erases. Qed.
Lemma IF_sub_e a x : fst (IF_addsub_c op_sub_c a x) = IF_sub a x. Proof. unfold IF_addsub_c, IF_sub. erases. Qed.
Lemma IF_mul_e a x : fst (IF_mul_c a x) = IF_mul a x. Proof. unfold IF_mul_c, IF_mul. erases. Qed.
Lemma IF_div_e a x : fst (IF_div_c a x) = IF_div a x. Proof. unfold IF_div_c, IF_div. erases. Qed.
Lemma FI_add_e x a : fst (FI_addsub_c op_add_c x a) = FI_add x a. Proof. unfold FI_addsub_c, FI_add. erases. Qed.
Lemma FI_sub_e x a : fst (FI_addsub_c op_sub_c x a) = FI_sub x a. Proof. unfold FI_addsub_c, FI_sub. erases. Qed.
Lemma FI_mul_e x a : fst (FI_mul_c x a) = FI_mul x a. Proof. unfold FI_mul_c, FI_mul. erases. Qed.
Lemma FI_div_e x a : fst (FI_div_c x a) = FI_div x a. Proof. unfold FI_div_c, FI_div. erases. Qed.
Lemma F_pow_e x a : fst (F_pow_c x a) = F_pow x a. Proof. unfold F_pow_c, F_pow. erases. Qed.
Ltac places := repeat first [rewrite result_top|rewrite result_bot]; cbn [top bot].
Lemma bind_assoc {A C D} (m : res A) (f : A -> res C) (g : C -> res D) : bind (bind m f) g = bind m (fun a => bind (f a) g).
Proof. destruct m; reflexivity. Qed.
Lemma F_add_assign_e x o : fst (F_add_assign_c x o) = result (F_add_assign x o).
Proof.
  unfold F_add_assign_c, F_addsub_assign_c, F_add_assign, F_addsub_assign. places. rewrite bind_assoc. apply fst_cbind; [apply op_mul_e|intros a].
  rewrite bind_assoc. apply fst_cbind; [apply op_mul_e|intros b]. apply fst_cbind; [apply op_add_e|intros t]. places. erases.
Qed.
Lemma F_sub_assign_e x o : fst (F_sub_assign_c x o) = result (F_sub_assign x o).
Proof.
  unfold F_sub_assign_c, F_addsub_assign_c, F_sub_assign, F_addsub_assign. places. rewrite bind_assoc. apply fst_cbind; [apply op_mul_e|intros a].
  rewrite bind_assoc. apply fst_cbind; [apply op_mul_e|intros b]. apply fst_cbind; [apply op_sub_e|intros t]. places. erases.
Qed.
Lemma F_mul_assign_e x o : fst (F_mul_assign_c x o) = result (F_mul_assign x o).
Proof. unfold F_mul_assign_c, F_mul_assign. places. apply fst_cbind; [apply mul_assign_e|intros a]. places. erases. Qed.
Lemma F_div_assign_e x o : fst (F_div_assign_c x o) = result (F_div_assign x o).
Proof. unfold F_div_assign_c, F_div_assign. apply fst_copy. places. apply fst_cbind; [apply mul_assign_e|intros a]. places. erases. Qed.
Lemma FI_add_assign_e x a : fst (FI_addsub_assign_c add_assign_c x a) = result (FI_add_assign x a).
Proof. unfold FI_addsub_assign_c, FI_add_assign. places. rewrite bind_assoc. erases. Qed.
Lemma FI_sub_assign_e x a : fst (FI_addsub_assign_c sub_assign_c x a) = result (FI_sub_assign x a).
Proof. unfold FI_addsub_assign_c, FI_sub_assign. places. rewrite bind_assoc. erases. Qed.
Lemma FI_mul_assign_e x a : fst (FI_mul_assign_c x a) = result (FI_mul_assign x a).
Proof. unfold FI_mul_assign_c, FI_mul_assign. places. erases. Qed.
Lemma FI_div_assign_e x a : fst (FI_div_assign_c x a) = result (FI_div_assign x a).
Proof. unfold FI_div_assign_c, FI_div_assign. places. erases. Qed.
Lemma F_pow_assign_e x a : fst (F_pow_assign_c x a) = result (F_pow_assign x a).
Proof.
  unfold F_pow_assign_c, F_pow_assign. rewrite result_match. apply fst_cbind; [destruct (is_negative a); [apply op_neg_e|reflexivity]|intros e].
  places. apply fst_cbind; [apply pow_assign_e|intros d]. places. erases.
Qed.
