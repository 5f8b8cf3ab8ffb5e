(** determinant() of upper triangular matrices of Int, int and double. *)
From Coq Require Import QArith SpecFloat.
From Verif Require Import Base IntModel IntSpec IntBasics IntDiv FracModel FracSpec FracProofs CommonModel CommonSpec ElemModel ElemSpec ElemProofs ElemInst VecModel MatModel MatSpec
  MatProofs DoubleModel Int32Spec Int32Proofs SimSpec SimProofs SimInst TriProofs.
Local Open Scope Z_scope.

Lemma zproduct_S n p : zproduct (S n) p = zproduct n p * p n.
Proof. reflexivity. Qed.
Lemma zproduct_nz n p : (forall i, (i < n)%nat -> p i <> 0) -> zproduct n p <> 0.
Proof. induction n as [|n IH]; intros H; [discriminate|]. rewrite zproduct_S. apply Z.neq_mul_0. split; [apply IH; intros; apply H; lia|apply H; lia]. Qed.

Lemma Int_div_safe x y a b : R_int x a -> R_int y b -> b <> 0 -> div_safe (Z.abs a) (Z.abs b) -> ret never (op_div x y) (fun r => R_int r (Z.quot a b)).
Proof.
  intros [Cx <-] [Cy <-] N D. destruct (divide_okrep x y) as (r & Er & C & V); auto.
  unfold op_div. rewrite Er. apply ret_ok. split; auto.
Qed.
Theorem Int_triangular m n g : mat_of R_int m n n g -> upper (fun a => a = 0) n g ->
  ret never (determinant Int_ops m) (fun d => R_int d (zproduct n (fun i => g i i))).
Proof.
  intros Hm [Ht Hd]. set (p k := zproduct k (fun i => g i i)).
  assert (Np : forall k, (k <= n)%nat -> p k <> 0) by (intros k Hk; apply zproduct_nz; intros; apply Hd; lia).
  apply (determinant_triangular Int_ops never R_int (fun a => a = 0) n g (fun k x => R_int x (p k)) (fun d => R_int d (p n))); auto.
  - intros x a Hx N. eapply ret_mono; [apply (Int_eq_exact x _ a 0 Hx (Int_const_exact 0 ltac:(lia)))|]. cbn beta. intros [] I; auto. exfalso. apply N, I. reflexivity.
  - intros x y a b Hx -> Hy. eapply ret_mono; [apply (Int_mul_exact _ _ _ _ Hx Hy)|]. intros r Hr. exists 0. auto.
  - intros x y a b Hx -> Hy N. eapply ret_mono; [apply (Int_div_safe _ _ _ _ Hx Hy N); left; cbn; lia|]. intros r Hr. exists 0. rewrite Z.quot_0_l in Hr by auto. auto.
  - intros x y a b Hx Hy ->. eapply ret_mono; [apply (proj1 Int_subA_exact _ _ _ _ Hx Hy)|]. intros r Hr. rewrite Z.sub_0_r in Hr. exact Hr.
  - apply (Int_const_exact 1). lia.
  - intros k x y Hk Hx Hy. eapply ret_mono; [apply (proj1 Int_mulA_exact _ _ _ _ Hx Hy)|]. intros r (W & C & V).
    change (val r = p (S k)) in V. split; auto. apply C. rewrite V. apply Np. lia.
  - intros x Hx. eapply ret_mono; [apply (Int_div_safe _ _ _ _ Hx (Int_const_exact 1 ltac:(lia)))|]; [lia|apply div_safe_1; lia|].
    intros r Hr. rewrite Z.quot_1_r in Hr. exact Hr.
  - intros -> x y z w Hx Hy Hz Hw. eapply ret_bind; [apply (Int_mul_exact _ _ _ _ Hx Hw)|]. intros a Ha.
    eapply ret_bind; [apply (Int_mul_exact _ _ _ _ Hy Hz)|]. intros b Hb. eapply ret_mono; [apply (Int_sub_exact _ _ _ _ Ha Hb)|].
    intros r Hr. rewrite (Ht 1%nat 0%nat), Z.mul_0_r, Z.sub_0_r in Hr by lia. unfold p. cbn [zproduct sum_to]. rewrite Z.mul_1_l. exact Hr.
  - intros -> x Hx. unfold p. cbn [zproduct sum_to]. rewrite Z.mul_1_l. exact Hx.
Qed.

(** lower triangular: an Int may abort dividing what is never used *)
Theorem Int_lower m n g : mat_of R_int m n n g -> lower (fun a => a = 0) n g ->
  ret may_abort (determinant Int_ops m) (fun d => R_int d (zproduct n (fun i => g i i))).
Proof.
  intros Hm [Ht Hd]. set (p k := zproduct k (fun i => g i i)).
  assert (W : forall S (r : res S) P, ret never r P -> ret may_abort r P) by (intros S r P [H|(h & [] & _)]; left; exact H).
  assert (Np : forall k, (k <= n)%nat -> p k <> 0) by (intros k Hk; apply zproduct_nz; intros; apply Hd; lia).
  apply (determinant_lower Int_ops may_abort R_int (fun a => a = 0) n g (fun k x => R_int x (p k)) (fun d => R_int d (p n))); auto.
  - intros x a Hx N. apply W. eapply ret_mono; [apply (Int_eq_exact x _ a 0 Hx (Int_const_exact 0 ltac:(lia)))|]. cbn beta. intros [] I; auto. exfalso. apply N, I. reflexivity.
  - intros x y a b Hx Hy ->. apply W. eapply ret_mono; [apply (Int_mul_exact _ _ _ _ Hx Hy)|]. intros r Hr. exists 0. rewrite Z.mul_0_r in Hr. auto.
  - intros x y a b Hx -> Hy N. apply W. eapply ret_mono; [apply (Int_div_safe _ _ _ _ Hx Hy N); left; cbn; lia|]. intros r Hr. exists 0. rewrite Z.quot_0_l in Hr by auto. auto.
  - intros x y a b Hx Hy ->. apply W. eapply ret_mono; [apply (proj1 Int_subA_exact _ _ _ _ Hx Hy)|]. intros r Hr. rewrite Z.sub_0_r in Hr. exact Hr.
  - intros x y z a b Hx Hy Hz N. eapply ret_bind; [apply W, (Int_mul_exact _ _ _ _ Hx Hy)|]. intros q Hq. cbn beta in Hq.
    eapply ret_mono; [apply (proj1 Int_divA_exact q z (a * b) b Hq (conj Hz N))|]. intros r Hr w Hw. apply W. eapply ret_mono; [apply (proj1 Int_subA_exact _ _ _ _ Hw Hr)|]. auto.
  - apply (Int_const_exact 1). lia.
  - intros k x y Hk Hx Hy. apply W. eapply ret_mono; [apply (proj1 Int_mulA_exact _ _ _ _ Hx Hy)|]. intros r (Wr & C & V).
    change (val r = p (S k)) in V. split; auto. apply C. rewrite V. apply Np. lia.
  - intros x Hx. apply W. eapply ret_mono; [apply (Int_div_safe _ _ _ _ Hx (Int_const_exact 1 ltac:(lia)))|]; [lia|apply div_safe_1; lia|].
    intros r Hr. rewrite Z.quot_1_r in Hr. exact Hr.
  - intros -> x y z w Hx Hy Hz Hw. eapply ret_bind; [apply W, (Int_mul_exact _ _ _ _ Hx Hw)|]. intros a Ha.
    eapply ret_bind; [apply W, (Int_mul_exact _ _ _ _ Hy Hz)|]. intros b Hb. apply W. eapply ret_mono; [apply (Int_sub_exact _ _ _ _ Ha Hb)|].
    intros r Hr. assert (Z0 : g 0%nat 1%nat = 0) by (apply (Ht 1%nat 0%nat); lia). rewrite Z0, Z.mul_0_l, Z.sub_0_r in Hr. unfold p. cbn [zproduct sum_to]. rewrite Z.mul_1_l. exact Hr.
  - intros -> x Hx. unfold p. cbn [zproduct sum_to]. rewrite Z.mul_1_l. exact Hx.
Qed.

(** int: exactly when the products along the diagonal fit *)
Theorem int32_triangular m n g : mat_of R32 m n n g -> upper (fun a => a = 0) n g ->
  exact_if (forall k, (k <= n)%nat -> fits (zproduct k (fun i => g i i))) (determinant int32_ops m) (fun d => R32 d (zproduct n (fun i => g i i))).
Proof.
  intros Hm [Ht Hd]. set (p k := zproduct k (fun i => g i i)).
  assert (F0 : fits 0) by (unfold fits, INT32_MIN, INT32_MAX; lia). assert (F1 : fits 1) by (unfold fits, INT32_MIN, INT32_MAX; lia).
  assert (G : forall ab : halt -> Prop, (ab HUB \/ forall k, (k <= n)%nat -> fits (p k)) ->
    ret ab (determinant int32_ops m) (fun d => d = p n /\ forall k, (k <= n)%nat -> fits (p k))).
  2: { split.
    - intros Hf. destruct (ret_False _ _ (G never (or_intror Hf))) as (d & E & -> & _). exists (p n). split; auto. split; auto.
    - intros Nf. destruct (G may_overflow (or_introl eq_refl)) as [(d & _ & _ & Hf)|([] & Hh & E)]; [contradiction|discriminate Hh|exact E]. }
  intros ab Hab.
  assert (I : forall z, fits z -> ret ab (i32 z) (fun r => r = z)) by (intros z Hz; rewrite i32_fits by auto; apply ret_ok; reflexivity).
  apply (determinant_triangular int32_ops ab R32 (fun a => a = 0) n g (fun k x => x = p k /\ forall j, (j <= k)%nat -> fits (p j))); auto;
    cbn [add sub mul div mulA subA eqb of_int int32_ops rd].
  - intros x a [-> _] N. apply ret_ok. apply Z.eqb_neq. exact N.
  - intros x y a b [-> _] -> [-> _]. eapply ret_mono; [apply I; cbn; auto|]. intros r ->. exists 0. split; auto. split; auto.
  - intros x y a b [-> _] -> [-> _] N. unfold int32_div. destruct (Z.eqb_spec b 0); [contradiction|]. rewrite Z.quot_0_l by auto. eapply ret_mono; [apply I; auto|]. intros r ->. exists 0. split; auto. split; auto.
  - intros x y a b [-> Fa] [-> _] ->. rewrite Z.sub_0_r. eapply ret_mono; [apply I; auto|]. intros r ->. split; auto.
  - split; [reflexivity|]. intros j Hj. replace j with 0%nat by lia. exact F1.
  - intros k x y Hk [-> Hf] [-> _]. change (p k * g k k) with (p (S k)).
    assert (D : fits (p (S k)) \/ ~ fits (p (S k)) /\ ab HUB). { destruct (fits_dec (p (S k))); auto. destruct Hab as [|Hab]; auto. }
    destruct D as [D|[D Hu]]; [|rewrite i32_over by auto; right; exists HUB; auto].
    eapply ret_mono; [apply I; auto|]. intros r ->. split; auto. intros j Hj. destruct (Nat.eq_dec j (S k)) as [->|]; auto. apply Hf. lia.
  - intros x [-> Hf]. unfold int32_div. cbn [Z.eqb]. rewrite Z.quot_1_r. eapply ret_mono; [apply I; apply Hf; lia|]. intros r ->. auto.
  - intros -> x y z w [-> F00] [-> _] [-> _] [-> _]. rewrite (Ht 1%nat 0%nat), Z.mul_0_r by lia.
    assert (P2 : g 0%nat 0%nat * g 1%nat 1%nat = p 2%nat) by (unfold p; cbn [zproduct sum_to]; rewrite Z.mul_1_l; reflexivity). rewrite P2.
    assert (D : fits (p 2%nat) \/ ~ fits (p 2%nat) /\ ab HUB). { destruct (fits_dec (p 2%nat)); auto. destruct Hab as [|Hab]; auto. }
    destruct D as [D|[D Hu]]; [|rewrite i32_over by auto; right; exists HUB; auto].
    rewrite (i32_fits 0), i32_fits by auto. cbn [bind]. rewrite Z.sub_0_r. eapply ret_mono; [apply I; auto|]. intros r ->. split; auto.
    intros j Hj. destruct j as [|[|[|j]]]; auto; [| lia]. unfold p. cbn [zproduct sum_to]. rewrite Z.mul_1_l. exact F00.
  - intros -> x [-> F00]. assert (P1 : g 0%nat 0%nat = p 1%nat) by (unfold p; cbn [zproduct sum_to]; rewrite Z.mul_1_l; reflexivity).
    split; auto. intros j Hj. destruct j as [|[|j]]; [exact F1|rewrite <- P1; exact F00|lia].
Qed.

(** double: when the products along the diagonal are doubles *)
Lemma double_exact (op : ops spec_float -> spec_float -> spec_float -> res spec_float) (opw : ops Q -> Q -> Q -> res Q) q x y x' y' :
  (forall ok, representable is_double ok -> is_double x x' -> is_double y y' -> sim never is_double (opw (watched ok) x y) (op double_ops x' y')) ->
  (forall ok, ok (Qred q) = true -> opw (watched ok) x y = Ok (Qred q)) ->
  is_double x x' -> is_double y y' -> (exists d, is_double q d) -> ret never (op double_ops x' y') (is_double q).
Proof.
  intros H G Hx Hy (d & D1 & D2 & D3). set (ok := fun r => Qeq_bool r q).
  assert (O : representable is_double ok). { intros r Hr. apply Qeq_bool_eq in Hr. exists d. split; auto. split; auto. rewrite D3, Hr. reflexivity. }
  eapply ret_mono; [apply (H ok O Hx Hy), G, Qeq_eq_bool, Qred_correct|]. intros r (R1 & R2 & R3). split; auto. split; auto. rewrite R3. apply Qred_correct.
Qed.
Lemma is_double_eq p q d : (p == q)%Q -> is_double p d -> is_double q d.
Proof. intros E (H1 & H2 & H3). split; auto. split; auto. rewrite H3. exact E. Qed.
Lemma watch_true ok q : ok (Qred q) = true -> watch ok q = Ok (Qred q).
Proof. intros H. unfold watch. rewrite H. reflexivity. Qed.
Lemma double_mul_exact x y x' y' : is_double x x' -> is_double y y' -> (exists d, is_double (x * y) d) -> ret never (mul double_ops x' y') (is_double (x * y)).
Proof.
  apply (double_exact (fun E => mul E) (fun E => mul E)).
  - intros ok H Hx Hy. apply double_mul; auto.
  - intros ok H. apply watch_true, H.
Qed.
Lemma double_mulA_exact x y x' y' : is_double x x' -> is_double y y' -> (exists d, is_double (x * y) d) -> ret never (mulA double_ops x' (Some y')) (is_double (x * y)).
Proof. exact (double_mul_exact x y x' y'). Qed.
Lemma double_sub_exact x y x' y' : is_double x x' -> is_double y y' -> (exists d, is_double (x - y) d) -> ret never (sub double_ops x' y') (is_double (x - y)).
Proof.
  apply (double_exact (fun E => sub E) (fun E => sub E)).
  - intros ok H Hx Hy. apply double_sub; auto.
  - intros ok H. apply watch_true, H.
Qed.
Lemma double_div_exact x y x' y' : is_double x x' -> is_double y y' -> ~ (y == 0)%Q -> (exists d, is_double (x / y) d) -> ret never (div double_ops x' y') (is_double (x / y)).
Proof.
  intros Hx Hy N. apply (double_exact (fun E => div E) (fun E => div E) (x / y) x y); auto.
  - intros ok H _ _. apply double_div; auto.
  - intros ok H. cbn [div watched]. unfold watched_div. destruct (Qeq_bool y 0) eqn:E; [apply Qeq_bool_eq in E; contradiction|]. apply watch_true, H.
Qed.
Lemma zero_double q : (q == 0)%Q -> exists d, is_double q d.
Proof. intros E. exists (double_of_int 0). apply (is_double_eq (inject_Z 0)); [symmetry; exact E|apply double_const; lia]. Qed.

Theorem double_triangular m n (g : nat -> nat -> Q) : mat_of (fun d q => is_double q d) m n n g -> upper (fun q => q == 0)%Q n g ->
  (forall k, (k <= n)%nat -> exists d, is_double (qproduct k (fun i => g i i)) d) ->
  exists d, determinant double_ops m = Ok d /\ is_double (qproduct n (fun i => g i i)) d.
Proof.
  intros Hm [Ht Hd] Hp. apply ret_False. set (p k := qproduct k (fun i => g i i)) in *.
  apply (determinant_triangular double_ops never (fun d q => is_double q d) (fun q => q == 0)%Q n g (fun k x => is_double (p k) x) (is_double (p n))); auto.
  - intros x a Hx N. apply ret_ok. change (of_int double_ops 0) with (double_of_int 0). rewrite (double_eqb _ _ _ _ Hx (double_const 0 ltac:(lia))). destruct (Qeq_bool _ _) eqn:E; auto. apply Qeq_bool_eq in E. contradiction.
  - intros x y a b Hx Za Hy. assert (Z : (a * b == 0)%Q) by (rewrite Za; ring).
    eapply ret_mono; [apply (double_mul_exact _ _ _ _ Hx Hy), zero_double, Z|]. intros r Hr. exists (a * b)%Q. auto.
  - intros x y a b Hx Za Hy N. assert (Z : (a / b == 0)%Q) by (rewrite Za; field; exact N).
    eapply ret_mono; [apply (double_div_exact _ _ _ _ Hx Hy N), zero_double, Z|]. intros r Hr. exists (a / b)%Q. auto.
  - intros x y a b Hx Hy Zb. assert (Z : (a - b == a)%Q) by (rewrite Zb; ring).
    eapply ret_mono; [apply (double_sub_exact _ _ _ _ Hx Hy)|].
    + exists x. apply (is_double_eq a); auto. symmetry. exact Z.
    + intros r Hr. apply (is_double_eq _ _ _ Z Hr).
  - apply (double_const 1). lia.
  - intros k x y Hk Hx Hy. apply (double_mulA_exact _ _ _ _ Hx Hy). apply (Hp (S k)). lia.
  - intros x Hx. assert (Z : (p n / inject_Z 1 == p n)%Q) by (cbn; field).
    eapply ret_mono; [apply (double_div_exact _ _ _ _ Hx (double_const 1 ltac:(lia)))|].
    + intros E. discriminate E.
    + exists x. apply (is_double_eq (p n)); auto. symmetry. exact Z.
    + intros r Hr. apply (is_double_eq _ _ _ Z Hr).
  - intros -> x y z w Hx Hy Hz Hw. assert (P2 : (g 0%nat 0%nat * g 1%nat 1%nat == p 2%nat)%Q) by (unfold p; cbn [qproduct sum_to]; ring).
    destruct (Hp 2%nat) as (d & D); [lia|].
    assert (Z : (g 0%nat 1%nat * g 1%nat 0%nat == 0)%Q) by (rewrite (Ht 1%nat 0%nat) by lia; ring).
    assert (Z' : (g 0%nat 0%nat * g 1%nat 1%nat - g 0%nat 1%nat * g 1%nat 0%nat == p 2%nat)%Q) by (rewrite Z, P2; ring).
    eapply ret_bind; [apply (double_mul_exact _ _ _ _ Hx Hw)|].
    { exists d. apply (is_double_eq (p 2%nat)); auto. symmetry. exact P2. }
    intros a Ha. eapply ret_bind; [apply (double_mul_exact _ _ _ _ Hy Hz), zero_double, Z|]. intros b Hb.
    eapply ret_mono; [apply (double_sub_exact _ _ _ _ Ha Hb)|].
    + exists d. apply (is_double_eq (p 2%nat)); auto. symmetry. exact Z'.
    + intros r Hr. apply (is_double_eq _ _ _ Z' Hr).
  - intros -> x Hx. apply (is_double_eq (g 0%nat 0%nat)); auto. unfold p. cbn [qproduct sum_to]. ring.
Qed.
