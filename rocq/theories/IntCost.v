(** The counted arithmetic computes what IntModel.v computes; bounds on the rounds. *)
From Coq Require Import ZifyBool.
From Verif Require Import Base IntModel IntSpec IntBasics IntAddSub IntMul IntDiv IntSize CostModel CostProofs IntCostModel.
Local Open Scope list_scope.
Local Open Scope Z_scope.

(** *** Erasure *)
Lemma fst_lap {A} (m : counted A) m' : fst m = m' -> fst (lap m) = m'.
Proof. auto. Qed.
Lemma fst_copy {A} x (f : Int -> counted A) m : fst (f x) = m -> fst (cbind (copy_c x) f) = m.
Proof. auto. Qed.
Lemma fst_clean {A} x (f : Int -> counted A) m : fst (f (clean_bins x)) = m -> fst (cbind (clean_bins_c x) f) = m.
Proof. auto. Qed.
Lemma fst_shifted {A} x i (f : Int -> counted A) m : fst (f (Int_shifted x i)) = m -> fst (cbind (shifted_c x i) f) = m.
Proof. auto. Qed.
Ltac erases := repeat first
  [ reflexivity | progress intros | solve [auto 2 with erase nocore]
  | match goal with
    | |- fst (lap _) = _ => apply fst_lap
    | |- fst (cbind (copy_c _) _) = _ => apply fst_copy
    | |- fst (cbind (shifted_c _ _) _) = _ => apply fst_shifted
    | |- fst (cbind (clean_bins_c _) _) = _ => apply fst_clean
    | |- fst (cbind _ _) = bind _ _ => apply fst_cbind
    | |- fst (if ?b then _ else _) = _ => destruct b
    | |- fst (match ?l with nil => _ | cons _ _ => _ end) = _ => destruct l
    end ].
Lemma push_e f : forall x, fst (push_c f x) = push_bins f x.
Proof. induction f as [|f IH]; intros x; [reflexivity|]. cbn [push_c push_bins]. destruct (x >=? BIN_LIMIT); [|reflexivity]. erases; apply IH. Qed.
#[export] Hint Resolve push_e : erase.
Lemma of_int64_e x s : fst (of_int64_c x s) = Int_of_int64 x s.
Proof. unfold of_int64_c, Int_of_int64. erases. Qed.
Lemma equals_e x v : fst (equals_c x v) = equals_int32 x v. Proof. reflexivity. Qed.
Lemma negate_e x : fst (negate_c x) = negate x.
Proof. unfold negate_c, negate. erases. Qed.
#[export] Hint Resolve of_int64_e negate_e : erase.
Lemma op_neg_e x : fst (op_neg_c x) = op_neg x.
Proof. unfold op_neg_c, op_neg, copy_c. cbn [cbind fst]. auto with erase. Qed.
Lemma cmp_e x y : fst (cmp_c x y) = cmp x y.
Proof. unfold cmp_c, cmp, cmp_bins_c. cbn [cbind fst]. apply fst_cbind; [destruct (_ =? 0); reflexivity|]. intros []; reflexivity. Qed.
#[export] Hint Resolve op_neg_e cmp_e : erase.
Lemma lt_e x y : fst (lt_c x y) = op_lt x y. Proof. unfold lt_c, op_lt. erases. Qed.
Lemma gt_e x y : fst (gt_c x y) = op_gt x y. Proof. unfold gt_c, op_gt. erases. Qed.
Lemma le_e x y : fst (le_c x y) = op_le x y. Proof. unfold le_c, op_le. erases. Qed.
Lemma ge_e x y : fst (ge_c x y) = op_ge x y. Proof. unfold ge_c, op_ge. erases. Qed.
#[export] Hint Resolve lt_e gt_e le_e ge_e : erase.
Lemma abs_e x : fst (abs_c x) = abs_Int x. Proof. unfold abs_c, abs_Int. erases. Qed.
Lemma add_carry_e l : forall c, fst (add_carry_c l c) = add_carry l c.
Proof. induction l as [|b l IH]; intros c; [reflexivity|]. cbn [add_carry_c add_carry]. erases; apply IH. Qed.
#[export] Hint Resolve abs_e add_carry_e : erase.
Lemma add_loop_e xs : forall bs c, fst (add_loop_c bs xs c) = add_loop bs xs c.
Proof. induction xs as [|x xs IH]; intros bs c; cbn [add_loop_c add_loop]; [auto with erase|]. erases; apply IH. Qed.
#[export] Hint Resolve add_loop_e : erase.
Lemma add_e x y : fst (add_c x y) = add_ x y. Proof. unfold add_c, add_. erases. Qed.
Lemma sub_borrow_e l : forall c, fst (sub_borrow_c l c) = sub_borrow l c.
Proof. induction l as [|b l IH]; intros c; [reflexivity|]. cbn [sub_borrow_c sub_borrow]. erases; apply IH. Qed.
#[export] Hint Resolve add_e sub_borrow_e : erase.
Lemma sub_loop_e xs : forall bs c, fst (sub_loop_c bs xs c) = sub_loop bs xs c.
Proof. induction xs as [|x xs IH]; intros bs c; cbn [sub_loop_c sub_loop]; [auto with erase|]. erases; apply IH. Qed.
#[export] Hint Resolve sub_loop_e : erase.
Lemma subtract_e x y : fst (subtract_c x y) = subtract x y. Proof. unfold subtract_c, subtract. erases. Qed.
#[export] Hint Resolve subtract_e : erase.
Lemma addsub_e f : forall s x y, fst (addsub_c f s x y) = addsub f s x y.
Proof.
  induction f as [|f IH]; intros s x y; [reflexivity|]. cbn [addsub_c addsub].
  destruct s, (negative x) eqn:?, (negative y) eqn:?; cbn [andb negb]; erases; try apply IH.
Qed.
Lemma op_add_e x y : fst (op_add_c x y) = op_add x y. Proof. apply addsub_e. Qed.
Lemma op_sub_e x y : fst (op_sub_c x y) = op_sub x y. Proof. apply addsub_e. Qed.
#[export] Hint Resolve op_add_e op_sub_e : erase.
Lemma addsub_assign_e f : forall s x o, fst (addsub_assign_c f s x o) = addsub_assign f s x o.
Proof.
  induction f as [|f IH]; intros s x y; [reflexivity|]. cbn [addsub_assign_c addsub_assign].
  destruct s, (negative x), (negative (rd x y)); cbn [andb negb]; erases; try apply IH.
Qed.
Lemma add_assign_e x o : fst (add_assign_c x o) = add_assign x o. Proof. apply addsub_assign_e. Qed.
Lemma sub_assign_e x o : fst (sub_assign_c x o) = sub_assign x o. Proof. apply addsub_assign_e. Qed.
#[export] Hint Resolve add_assign_e sub_assign_e : erase.
Lemma mbi_loop_e xs : forall y i r, fst (mbi_loop_c xs y i r) = mbi_loop xs y i r.
Proof. induction xs as [|x xs IH]; intros y i r; [reflexivity|]. cbn [mbi_loop_c mbi_loop]. erases; apply IH. Qed.
#[export] Hint Resolve mbi_loop_e : erase.
Lemma mbi_e x y : fst (multiply_by_int_c x y) = multiply_by_int x y.
Proof. unfold multiply_by_int_c, multiply_by_int. erases. Qed.
#[export] Hint Resolve mbi_e : erase.
Lemma mul_loop_e x ys : forall i r, fst (mul_loop_c x ys i r) = mul_loop x ys i r.
Proof. induction ys as [|y ys IH]; intros i r; [reflexivity|]. cbn [mul_loop_c mul_loop]. erases; apply IH. Qed.
#[export] Hint Resolve mul_loop_e : erase.
Lemma multiply_e x y : fst (multiply_c x y) = multiply x y.
Proof. unfold multiply_c, multiply. erases. Qed.
#[export] Hint Resolve multiply_e : erase.
Lemma op_mul_e x y : fst (op_mul_c x y) = op_mul x y. Proof. unfold op_mul_c, op_mul. erases. Qed.
Lemma mul_assign_e x o : fst (mul_assign_c x o) = mul_assign x o. Proof. unfold mul_assign_c, mul_assign. erases. Qed.
#[export] Hint Resolve op_mul_e mul_assign_e : erase.
Lemma iter_e f : forall y x b s, fst (iter_quotient_c f y x b s) = iter_quotient f y x b s.
Proof.
  induction f as [|f IH]; intros y x b s; [reflexivity|]. cbn [iter_quotient_c iter_quotient]. unfold cmp_bins_c.
  apply fst_lap. apply fst_cbind; [reflexivity|intros b']. apply fst_cbind; [apply mbi_e|intros p]. apply fst_cbind; [apply op_sub_e|intros r].
  destruct (negative r); cbn [negb andb cbind free fst snd]; [reflexivity|]. destruct (_ <=? 0); [apply IH|reflexivity].
Qed.
#[export] Hint Resolve iter_e : erase.
Lemma qr_loop_e f : forall y x s q r, fst (qr_loop_c f y x s q r) = qr_loop f y x s q r.
Proof. induction f as [|f IH]; intros y x s q r; [reflexivity|]. cbn [qr_loop_c qr_loop]. erases; apply IH. Qed.
#[export] Hint Resolve qr_loop_e : erase.
Lemma qr_e y x r : fst (quotient_and_remainder_c y x r) = quotient_and_remainder y x r.
Proof. unfold quotient_and_remainder_c, quotient_and_remainder. erases. Qed.
#[export] Hint Resolve qr_e : erase.
Lemma div_loop_e k : forall x bs r c, fst (div_loop_c k x bs r c) = div_loop k x bs r c.
Proof.
  induction k as [|k IH]; intros x bs r c; [reflexivity|]. cbn [div_loop_c div_loop]. apply fst_lap.
  do 4 (apply fst_cbind; [reflexivity|intros ?]). unfold cmp_bins_c, clean_c. cbn [cbind fst]. apply fst_cbind; [erases|].
  intros [[bs1 r1] c1]. unfold clean_bins_c, clean_c. cbn [lap cbind free fst]. apply IH.
Qed.
#[export] Hint Resolve div_loop_e : erase.
Lemma divide_e x y : fst (divide_c x y) = divide x y.
Proof. unfold divide_c, divide. apply fst_cbind; [reflexivity|]. intros []; [reflexivity|]. unfold cmp_bins_c. cbn [cbind fst]. destruct (_ <? 0); [reflexivity|]. erases. Qed.
#[export] Hint Resolve divide_e : erase.
Lemma op_div_e x y : fst (op_div_c x y) = op_div x y. Proof. unfold op_div_c, copy_c. cbn [cbind fst]. apply divide_e. Qed.
Lemma div_assign_e x o : fst (div_assign_c x o) = div_assign x o. Proof. unfold div_assign_c, copy_c. cbn [cbind fst]. apply divide_e. Qed.
#[export] Hint Resolve op_div_e : erase.
Lemma op_mod_e x y : fst (op_mod_c x y) = op_mod x y.
Proof. unfold op_mod_c, op_mod, modulo. erases. Qed.
Lemma mod_assign_e x o : fst (mod_assign_c x o) = mod_assign x o. Proof. apply op_mod_e. Qed.
