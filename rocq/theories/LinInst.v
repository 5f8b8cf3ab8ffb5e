(** Int and int as elements of vectors and matrices that a program works on. *)
From Coq Require Import ZArith QArith List Lia.
From Verif Require Import Base IntModel IntSpec IntBasics IntAddSub IntMul IntDiv PropsInt IntCalls IntHistory FracModel FracSpec FracProofs
  ElemModel ElemSpec ElemProofs ElemInst MatModel MatSpec Int32Spec Int32Proofs LinSpec LinProofs.
From Verif Require PropsMat PropsFrac PropsFracMat.
Local Open Scope Z_scope.

(** an Int in any representation: leading zeros and a sign on zero are allowed *)
Definition R_any (x : Int) (a : Z) : Prop := wf x /\ val x = a.

Lemma const64 k : INT64_MIN < k <= INT64_MAX -> R_int (int_const k) k.
Proof.
  intros H. unfold int_const. destruct (Int_of_int64_ok k 0) as (x & E & V & C & _); [lia|].
  rewrite E. split; auto. rewrite V. change (pw 0) with 1. lia.
Qed.
Lemma R_int_any x a : R_int x a -> R_any x a.
Proof. intros [C V]. split; auto. Qed.

Section Any.
Lemma sound_ret o x y m f : o <> Div -> o <> Mod -> (forall v, zresult o (val x) (val y) v -> v = f (val x) (val y)) ->
  sound o x y m -> ret may_abort m (fun z => R_any z (f (val x) (val y))).
Proof.
  intros N1 N2 Hf [(r & -> & W & Z)|[([?|?] & _)|(_ & ->)]]; try contradiction.
  - left. exists r. split; auto. split; auto.
  - apply ret_abort. auto.
Qed.
Lemma any_binary o f : o <> Div -> o <> Mod -> (forall a b v, zresult o a b v -> v = f a b) -> binary_exact may_abort R_any (binary o) f.
Proof.
  intros N1 N2 Hf x y a b [Wx <-] [Wy <-]. apply (sound_ret o); auto. apply binary_sound; auto.
Qed.
Lemma any_assign o f : o <> Div -> o <> Mod -> (forall a b v, zresult o a b v -> v = f a b) -> assign_exact may_abort R_any R_any R_any (assign o) f.
Proof.
  intros N1 N2 Hf. split; [intros x y a b [Wx <-] [Wy <-]|intros x a [Wx <-] _].
  - apply (sound_ret o x (rd x (Some y))); auto. apply assign_sound; auto. intros ? [= <-]. auto.
  - apply (sound_ret o x (rd x None)); auto. apply assign_sound; auto. discriminate.
Qed.
Lemma any_quot x y m : sound Div x y m ->
  if val y =? 0 then raises may_abort DivideByZero m else ret may_abort m (fun z => R_any z (Z.quot (val x) (val y))).
Proof.
  intros [(r & -> & W & N & V)|[(_ & Z & ->)|(_ & ->)]].
  - destruct (Z.eqb_spec (val y) 0); [contradiction|]. left. exists r. split; auto. split; auto.
  - rewrite Z. left. reflexivity.
  - destruct (val y =? 0); right; exists HAbort; split; reflexivity.
Qed.
Lemma any_add : binary_exact may_abort R_any (add Int_ops) Z.add.
Proof. apply (any_binary Add); try discriminate. auto. Qed.
Lemma any_sub : binary_exact may_abort R_any (sub Int_ops) Z.sub.
Proof. apply (any_binary Sub); try discriminate. auto. Qed.
Lemma any_mul : binary_exact may_abort R_any (mul Int_ops) Z.mul.
Proof. apply (any_binary Mul); try discriminate. auto. Qed.
Lemma any_addA : assign_exact may_abort R_any R_any R_any (addA Int_ops) Z.add.
Proof. apply (any_assign Add); try discriminate. auto. Qed.
Lemma any_subA : assign_exact may_abort R_any R_any R_any (subA Int_ops) Z.sub.
Proof. apply (any_assign Sub); try discriminate. auto. Qed.
Lemma any_mulA : assign_exact may_abort R_any R_any R_any (mulA Int_ops) Z.mul.
Proof. apply (any_assign Mul); try discriminate. auto. Qed.
Lemma any_zero : R_any (of_int Int_ops 0) 0.
Proof. apply R_int_any. apply (Int_const_exact 0). lia. Qed.
Lemma any_eq x y a b : R_any x a -> R_any y b -> ret may_abort (eqb Int_ops x y) (fun e => e = true <-> a = b).
Proof. intros [Wx <-] [Wy <-]. left. exists (val x =? val y). split; [apply op_eq_spec; auto|]. apply Z.eqb_eq. Qed.
End Any.

(** the integers, with a determinant and without row reduction *)
Definition Z_algebra (det : nat -> (nat -> nat -> Z) -> Z) : algebra Z := {|
  zero := 0; one := 1; lit := fun k => k; fadd := Z.add; fsub := Z.sub; fmul := Z.mul; fdiv := Z.quot; fneg := Z.opp; feq := Z.eqb;
  fdet := det; is_reduced := fun _ _ _ _ => False; is_inverse := fun _ _ _ => False |}.

(** All calls but those that need a field; literals of type int64_t. *)
Definition int_features (f : feature) : Prop :=
  match f with FLit k => INT64_MIN < k <= INT64_MAX | FField => False | _ => True end.
(** Without division and without the elements' *=. *)
Definition plain_features (f : feature) : Prop :=
  match f with FLit k => INT64_MIN < k <= INT64_MAX | FNull | FNeg | FExpand => True | _ => False end.
Definition int32_features (f : feature) : Prop :=
  match f with FLit k => fits k | FField => False | _ => True end.

Section Int.
Context (det : nat -> (nat -> nat -> Z) -> Z).
Lemma ratio_Z a : (a =? 0) = false -> (Z.quot a a =? 0) = false.
Proof. intros H. apply Z.eqb_neq in H. rewrite Z.quot_same by auto. reflexivity. Qed.

Lemma Int_any : (forall m n g, mat_of R_any m n n g -> (0 < n)%nat -> ret may_abort (row_cofactor_expansion Int_ops m) (fun x => R_any x (det n g))) ->
  (forall m n g, mat_of R_any m n n g -> (0 < n)%nat -> ret may_abort (col_cofactor_expansion Int_ops m) (fun x => R_any x (det n g))) ->
  exact_elements Int_ops (Z_algebra det) may_abort R_any int_features.
Proof.
  intros Hrow Hcol. split.
  - apply R_int_any. apply (Int_const_exact 0). lia.
  - apply R_int_any. apply (Int_const_exact 1). lia.
  - intros k Hk. apply R_int_any, const64, Hk.
  - intros _ x a [W <-]. destruct (op_neg_ok x W) as (r & E & V & _ & W' & _). left. exists r. split; auto. split; auto.
  - exact any_add.
  - exact any_sub.
  - exact any_mul.
  - exact any_addA.
  - exact any_subA.
  - intros x y a b [Wx <-] [Wy <-]. left. exists (val x =? val y). split; auto. apply op_eq_spec; auto.
  - intros _. exact any_mulA.
  - intros _ x y a b [Wx <-] [Wy <-]. apply (any_quot x y). apply (binary_sound Div); auto.
  - intros _ x y a b [Wx <-] [Wy <-]. apply (any_quot x (rd x (Some y))). apply (assign_sound Div x (Some y)); auto. intros ? [= <-]. auto.
  - intros _ x a [Wx <-]. apply (any_quot x (rd x None)). apply (assign_sound Div x None); auto. discriminate.
  - intros _ a. apply ratio_Z.
  - intros _. exact Hrow.
  - intros _. exact Hcol.
  - intros [].
  - intros [].
  - intros [].
  - intros [].
Qed.
Lemma Int_plain : (forall m n g, mat_of R_int m n n g -> (0 < n)%nat -> ret never (row_cofactor_expansion Int_ops m) (fun x => R_int x (det n g))) ->
  (forall m n g, mat_of R_int m n n g -> (0 < n)%nat -> ret never (col_cofactor_expansion Int_ops m) (fun x => R_int x (det n g))) ->
  exact_elements Int_ops (Z_algebra det) never R_int plain_features.
Proof.
  intros Hrow Hcol. split.
  - apply (Int_const_exact 0). lia.
  - apply (Int_const_exact 1). lia.
  - intros k Hk. apply const64, Hk.
  - intros _. apply PropsMat.Int_neg_exact.
  - apply Int_add_exact.
  - apply Int_sub_exact.
  - apply Int_mul_exact.
  - apply Int_addA_exact.
  - apply Int_subA_exact.
  - intros x y a b [Cx <-] [Cy <-]. left. exists (val x =? val y). split; auto. apply op_eq_spec; [apply Cx|apply Cy].
  - intros [].
  - intros [].
  - intros [].
  - intros [].
  - intros [].
  - intros _. exact Hrow.
  - intros _. exact Hcol.
  - intros [].
  - intros [].
  - intros [].
  - intros [].
Qed.
Lemma int32_overflows : (forall m n g, mat_of R32 m n n g -> (0 < n)%nat -> ret may_overflow (row_cofactor_expansion int32_ops m) (fun x => R32 x (det n g))) ->
  (forall m n g, mat_of R32 m n n g -> (0 < n)%nat -> ret may_overflow (col_cofactor_expansion int32_ops m) (fun x => R32 x (det n g))) ->
  exact_elements int32_ops (Z_algebra det) may_overflow R32 int32_features.
Proof.
  intros Hrow Hcol.
  assert (Q : forall a b, if b =? 0 then raises may_overflow DivideByZero (int32_div a b) else ret may_overflow (int32_div a b) (fun z => R32 z (Z.quot a b))).
  { intros a b. unfold int32_div. destruct (Z.eqb_spec b 0); [right; exists HUB; split; reflexivity|].
    destruct (fits_dec (Z.quot a b)); [rewrite i32_fits by auto; apply ret_ok; split; auto|rewrite i32_over by auto; right; exists HUB; split; reflexivity]. }
  split.
  - split; [reflexivity|]. unfold fits, INT32_MIN, INT32_MAX. cbn. lia.
  - split; [reflexivity|]. unfold fits, INT32_MIN, INT32_MAX. cbn. lia.
  - intros k Hk. split; [reflexivity|exact Hk].
  - intros _ x a [-> F]. cbn. destruct (fits_dec (- a)); [rewrite i32_fits by auto; apply ret_ok; split; auto|rewrite i32_over by auto; right; exists HUB; split; reflexivity].
  - apply (R32_op Z.add). reflexivity.
  - apply (R32_op Z.sub). reflexivity.
  - apply (R32_op Z.mul). reflexivity.
  - apply (R32_opA Z.add); reflexivity.
  - apply (R32_opA Z.sub); reflexivity.
  - intros x y a b [-> _] [-> _]. apply ret_ok. reflexivity.
  - intros _. apply (R32_opA Z.mul); reflexivity.
  - intros _ x y a b [-> _] [-> _]. apply Q.
  - intros _ x y a b [-> _] [-> _]. apply Q.
  - intros _ x a [-> _]. apply Q.
  - intros _ a. apply ratio_Z.
  - intros _. exact Hrow.
  - intros _. exact Hcol.
  - intros [].
  - intros [].
  - intros [].
  - intros [].
Qed.
End Int.

(** Frac: reduced fractions, without unary minus, /=, and whatever compares with an
    int or converts one implicitly, none of which exist or does the same. *)
Definition frac_features (f : feature) : Prop :=
  match f with FLit k => INT32_MIN <= k <= INT32_MAX | FMulA | FDiv => True | _ => False end.
Definition Q_algebra : algebra Q := {|
  zero := inject_Z 0; one := inject_Z 1; lit := inject_Z; fadd := Qplus; fsub := Qminus; fmul := Qmult; fdiv := Qdiv; fneg := Qopp; feq := Qeq_bool;
  fdet := fun _ _ => inject_Z 0; is_reduced := fun _ _ _ _ => False; is_inverse := fun _ _ _ => False |}.
Lemma zero_top f : reduced f -> (Fval f == 0)%Q -> val (top f) = 0.
Proof.
  intros Rf H. pose proof (Fval_ratio f Rf) as N. unfold Fval, ratio in H.
  assert (H1 : (inject_Z (val (top f)) == 0)%Q).
  { assert (H2 : (inject_Z (val (top f)) == inject_Z (val (top f)) / inject_Z (val (bot f)) * inject_Z (val (bot f)))%Q).
    { field. intros E. apply N. apply (inject_Z_injective _ 0). exact E. }
    rewrite H2, H. apply Qmult_0_l. }
  apply (inject_Z_injective _ 0). exact H1.
Qed.
Lemma frac_elements : exact_elements Frac_ops Q_algebra may_abort R_frac frac_features.
Proof.
  split.
  - apply (Frac_const_exact 0). lia.
  - apply (Frac_const_exact 1). lia.
  - intros k Hk. destruct (PropsFrac.C32_of_int k Hk) as (f & E & R & V). change (R_frac (frac_const k) (inject_Z k)). unfold frac_const. rewrite E. split; auto.
  - intros [].
  - apply Frac_add_exact.
  - apply Frac_sub_exact.
  - apply Frac_mul_exact.
  - apply Frac_addA_exact.
  - apply Frac_subA_exact.
  - intros x y a b Hx Hy. destruct (Frac_eq_exact x y a b Hx Hy) as [(e & E & He)|(h & [] & _)]. left. exists e. split; auto.
    cbn [feq Q_algebra]. destruct (Qeq_bool a b) eqn:Q.
    + apply He. apply Qeq_bool_iff. auto.
    + destruct e; auto. assert (a == b)%Q by (apply He; auto). apply Qeq_bool_iff in H. congruence.
  - intros _. apply Frac_mulA_exact.
  - intros _ x y a b Hx Hy. cbn [feq zero Q_algebra]. destruct (Qeq_bool b (inject_Z 0)) eqn:Q.
    + apply Qeq_bool_iff in Q. destruct Hx as [Rx Va], Hy as [Ry Vb].
      destruct (F_div_makes x y (parts_reduced x Rx) (parts_reduced y Ry)) as [[_ E]|[(N & _)|(N & _)]]; [left; exact E| |];
        contradiction N; (replace (val (top y)) with 0; [lia|]); symmetry; apply zero_top; auto; rewrite Vb; exact Q.
    + apply PropsFracMat.Frac_div_exact; auto. split; auto. intros Z. change (b == inject_Z 0)%Q in Z. apply Qeq_bool_iff in Z. congruence.
  - intros [].
  - intros [].
  - intros [].
  - intros [].
  - intros [].
  - intros [].
  - intros [].
  - intros [].
  - intros [].
Qed.
