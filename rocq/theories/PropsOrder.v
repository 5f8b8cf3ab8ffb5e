(** Property theorems about the order in which operands are evaluated: C132. C++ leaves it open
    for the operands of +, -, *, < and the arguments of a constructor; [may_give k (l, r) m] says
    that m is an outcome of k (l, r) under some order. *)
From Coq Require Import ZArith Lia.
From Verif Require Import Base IntModel IntSpec IntBasics PropsInt FracModel FracSpec FracProofs PropsFrac FracHistory ElemModel VecModel MatModel
  ReleaseModel PropsRelease FracReleaseModel PropsFracRelease ContReleaseModel FracReleaseCallsProofs OrderModel OrderSpec OrderProofs.
Local Open Scope list_scope.
Local Open Scope Z_scope.

(** ** C132 *)
(** Left to right is a possible order. If calls on good values give good values or fail in one way
    only, then every order has the outcome of that one. *)
Theorem C132_possible : forall (A C : Type) (k : A -> A -> res C) p, may_give k p (call_in_order p k).
Proof. exact @some_order. Qed.
Theorem C132_unique : forall (A C : Type) (P : A -> Prop) x0 (k : A -> A -> res C) p m, plain P x0 (fst p) -> plain P x0 (snd p) ->
  (may_give k p m <-> m = call_in_order p k).
Proof. exact @one_outcome. Qed.
(** The operators of Frac on any well-formed Ints, with assertions and without: one outcome only,
    that of the model. *)
Theorem C132_binary : forall o x y m, wfrac x -> wfrac y ->
  (may_give Frac_make (bin_args op_mul op_add op_sub o x y) m <-> m = Fbin o x y) /\
  (may_give Frac_make_nd (bin_args op_mul_nd op_add_nd op_sub_nd o x y) m <-> m = Fbin_nd o x y).
Proof. exact bin_outcome. Qed.
Theorem C132_with_Int : forall o x a m, wfrac x -> wf a ->
  (may_give Frac_make (intl_args op_mul op_add op_sub o a x) m <-> m = IFbin o a x) /\
  (may_give Frac_make (intr_args op_mul op_add op_sub o x a) m <-> m = FIbin o x a) /\
  (may_give Frac_make_nd (intl_args op_mul_nd op_add_nd op_sub_nd o a x) m <-> m = IFbin_nd o a x) /\
  (may_give Frac_make_nd (intr_args op_mul_nd op_add_nd op_sub_nd o x a) m <-> m = FIbin_nd o x a).
Proof. exact mixed_outcome. Qed.
Theorem C132_less : forall x y m, wfrac x -> wfrac y ->
  (may_give op_lt (lt_sides op_mul x y) m <-> m = F_lt x y) /\ (may_give op_lt (lt_sides op_mul_nd x y) m <-> m = F_lt_nd x y).
Proof. exact lt_outcome. Qed.
(** The exponent e is computed first. *)
Theorem C132_power : forall x a e m, wfrac x -> wf a -> (if is_negative a then op_neg a else Ok a) = Ok e ->
  (may_give Frac_make (pow_args op_pow (is_negative a) x e) m <-> m = F_pow x a) /\
  (may_give Frac_make_nd (pow_args op_pow_nd (is_negative a) x e) m <-> m = F_pow_nd x a).
Proof. exact pow_outcome. Qed.
(** The new numerator in x += y and x -= y *)
Theorem C132_in_place : forall x y m, wfrac x -> wfrac y ->
  (may_give op_add (lt_sides op_mul x y) m <-> m = call_in_order (lt_sides op_mul x y) op_add) /\
  (may_give op_sub (lt_sides op_mul x y) m <-> m = call_in_order (lt_sides op_mul x y) op_sub) /\
  (may_give op_add_nd (lt_sides op_mul_nd x y) m <-> m = call_in_order (lt_sides op_mul_nd x y) op_add_nd) /\
  (may_give op_sub_nd (lt_sides op_mul_nd x y) m <-> m = call_in_order (lt_sides op_mul_nd x y) op_sub_nd).
Proof. exact sum_outcome. Qed.
(** Each element a * b - c * d of a cross product, and the determinant of a 2 x 2 matrix: of Ints, of reduced Fracs, and without
    assertions also of unreduced Fracs *)
Theorem C132_cross_Int : forall a b c d m, wf a -> wf b -> wf c -> wf d ->
  (may_give op_sub (cross_sides Int_ops a b c d) m <-> m = call_in_order (cross_sides Int_ops a b c d) op_sub) /\
  (may_give op_sub_nd (cross_sides Int_ops_nd a b c d) m <-> m = call_in_order (cross_sides Int_ops_nd a b c d) op_sub_nd).
Proof. exact cross_int. Qed.
Theorem C132_cross_Frac : forall a b c d m, reduced a -> reduced b -> reduced c -> reduced d ->
  (may_give F_sub (cross_sides Frac_ops a b c d) m <-> m = call_in_order (cross_sides Frac_ops a b c d) F_sub).
Proof. exact cross_frac. Qed.
Theorem C132_cross_Frac_nd : forall a b c d m, finite a -> finite b -> finite c -> finite d ->
  (may_give F_sub_nd (cross_sides Frac_ops_nd a b c d) m <-> m = call_in_order (cross_sides Frac_ops_nd a b c d) F_sub_nd).
Proof. exact cross_frac_nd. Qed.
Theorem C132_cross_model : forall T (E : ops T) a0 a1 a2 b0 b1 b2, let x := [a0; a1; a2] in let y := [b0; b1; b2] in
  minor E x y 1 2 = call_in_order (cross_sides E a1 b2 a2 b1) (sub E) /\
  minor E x y 2 0 = call_in_order (cross_sides E a2 b0 a0 b2) (sub E) /\
  minor E x y 0 1 = call_in_order (cross_sides E a0 b1 a1 b0) (sub E).
Proof. exact @minor_in_order. Qed.
Theorem C132_det2_model : forall T (E : ops T) a b c d, det2 E (mkMat 2 2 [Some a; Some b; Some c; Some d]) = call_in_order (cross_sides E a d b c) (sub E).
Proof. intros. apply det2_in_order. Qed.

(** Elements with a zero denominator, which /= 0 makes, do make the order visible:
    1/0 * 1/1 throws DivideByZero and (10^27 + 7)/1 * 1/(7 * 10^9) fails an assertion. *)
Definition inf : Frac := mkFrac (i 1) (i 0).
Definition unit_frac : Frac := mkFrac (i 1) (i 1).
Definition big : Frac := mkFrac (mkInt [7; 0; 0; 1] false) (i 1).
Definition small : Frac := mkFrac (i 1) (mkInt [0; 7] false).
Theorem C132_cross_refuted :
  F_div_assign unit_frac (Some (fr 0 1)) = (inf, Ok tt) /\ reduced unit_frac /\ reduced big /\ reduced small /\
  may_give F_sub (cross_sides Frac_ops inf unit_frac big small) (Throw DivideByZero) /\
  may_give F_sub (cross_sides Frac_ops inf unit_frac big small) Abort.
Proof.
  splits; [vm_compute; reflexivity|unfold reduced; splits; try (apply canonicalb_spec); reflexivity..| |].
  - apply (g_stop_left F_sub _ _ (Threw DivideByZero)). constructor. vm_compute. reflexivity.
  - apply (g_stop_right F_sub _ _ Asserted). constructor. vm_compute. reflexivity.
Qed.

(** 2/3 - 5/7 is -1/21 in any order. *)
Example C132_ex : forall m, may_give Frac_make (bin_args op_mul op_add op_sub FSub (fr 2 3) (fr 5 7)) m -> m = Ok (fr (-1) 21).
Proof.
  intros m H. apply C132_binary in H; [|split; apply canonicalb_spec; reflexivity..]. rewrite H. vm_compute. reflexivity.
Qed.
(** Two calls that fail in different ways: both outcomes are possible, and no third. *)
Example C132_ex_two : forall m,
  may_give op_add (Node op_div (Leaf (i 1)) (Leaf (i 0)), Node (fun _ _ => Abort) (Leaf (i 1)) (Leaf (i 0))) m <->
  m = Throw DivideByZero \/ m = Abort.
Proof.
  intros m. split.
  - intros H. remember (Node op_div _ _, _) as p eqn:Ep. destruct H as [a b|l l' r m Hs G|l r r' m Hs G|l r x Hs|l r x Hs]; injection Ep; intros; subst.
    + discriminate.
    + inversion Hs as [? ? ? ? E|? ? ? ? E|? ? ? ? E]; subst; [discriminate|inversion E..].
    + inversion Hs as [? ? ? ? E|? ? ? ? E|? ? ? ? E]; subst; [discriminate|inversion E..].
    + inversion Hs as [? ? ? ? E|? ? ? ? E|? ? ? ? E]; subst; [|inversion E..]. left. destruct x; try discriminate. injection E as <-. reflexivity.
    + inversion Hs as [? ? ? ? E|? ? ? ? E|? ? ? ? E]; subst; [|inversion E..]. right. destruct x; try discriminate. reflexivity.
  - intros [ -> | -> ]; [apply (g_stop_left op_add _ _ (Threw DivideByZero))|apply (g_stop_right op_add _ _ Asserted)]; constructor; reflexivity.
Qed.

Print Assumptions C132_possible.
Print Assumptions C132_unique.
Print Assumptions C132_binary.
Print Assumptions C132_with_Int.
Print Assumptions C132_less.
Print Assumptions C132_power.
Print Assumptions C132_in_place.
Print Assumptions C132_cross_Int.
Print Assumptions C132_cross_Frac.
Print Assumptions C132_cross_Frac_nd.
Print Assumptions C132_cross_model.
Print Assumptions C132_det2_model.
Print Assumptions C132_cross_refuted.
