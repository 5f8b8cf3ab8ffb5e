(** The element types double, int and Int against exact rational arithmetic. *)
From Coq Require Import Reals Qreals QArith Lra Lia SpecFloat.
From Flocq Require Import Core BinarySingleNaN.
From Verif Require Import Base IntModel IntSpec IntBasics IntAddSub IntMul IntDiv IntMod IntScale FracModel FracSpec FracProofs CommonModel CommonSpec CommonProofs
  ElemModel ElemSpec ElemProofs ElemInst VecModel VecProofs MatModel MatSpec MatProofs Int32Spec Int32Proofs DoubleModel DoubleSpec DoubleProofs SimSpec SimProofs.
Local Open Scope Z_scope.

#[local] Existing Instances Hprec Hmax Vexp.

Lemma watch_ok ok q r : watch ok q = Ok r -> (r == q)%Q /\ ok r = true.
Proof. unfold watch. destruct (ok (Qred q)) eqn:E; intros [= <-]. split; [apply Qred_correct|exact E]. Qed.
Lemma watched_div_ok ok x y r : watched_div ok x y = Ok r -> ~ (y == 0)%Q /\ (r == x / y)%Q /\ ok r = true.
Proof.
  unfold watched_div. destruct (Qeq_bool y 0) eqn:E; [discriminate|]. intros H. split; [apply Qeq_bool_neq, E|]. apply watch_ok, H.
Qed.
Lemma rd_sim {A B} (R : A -> B -> Prop) x x' y y' : R x x' -> option_rel R y y' -> R (rd x y) (rd x' y').
Proof. destruct y, y'; cbn; intros; auto; contradiction. Qed.

(** *** double *)
Lemma is_double_bin q d : is_double q d <-> exists b : bin, d = B2SF b /\ is_finite b = true /\ B2R b = Q2R q.
Proof.
  split.
  - intros (D & F & V). destruct (lift_finite d D F) as (b & <- & Fb). exists b. splits; auto. rewrite <- Q2R_dval. apply Qeq_eqR, V.
  - intros (b & -> & F & V). split; [apply double_bin|]. split; [apply finite_equiv, F|]. apply eqR_Qeq. rewrite Q2R_dval. exact V.
Qed.
Definition held (r : R) : Prop := exists b : bin, is_finite b = true /\ B2R b = r.
Lemma held_rnd r : held r -> rnd r = r /\ Rlt_bool (Rabs (rnd r)) (bpow radix2 1024) = true.
Proof.
  intros (b & F & <-). assert (E : rnd (B2R b) = B2R b) by apply rnd_format, generic_format_B2R.
  split; [exact E|]. rewrite E. apply Rlt_bool_true, abs_B2R_lt_emax.
Qed.
Lemma held_ok ok q : representable is_double ok -> ok q = true -> held (Q2R q).
Proof. intros H E. destruct (H q E) as (d & Hd). apply is_double_bin in Hd as (b & -> & F & V). exists b. auto. Qed.

Lemma plus_exact (x y : bin) : is_finite x = true -> is_finite y = true -> held (B2R x + B2R y) ->
  is_finite (Bplus mode_NE x y) = true /\ B2R (Bplus mode_NE x y) = (B2R x + B2R y)%R.
Proof.
  intros Fx Fy H. destruct (held_rnd _ H) as [E L]. pose proof (Bplus_correct 53 1024 _ _ mode_NE x y Fx Fy) as C.
  change (round radix2 _ _ _) with (rnd (B2R x + B2R y)) in C. rewrite L, E in C. destruct C as (C1 & C2 & _). auto.
Qed.
Lemma minus_exact (x y : bin) : is_finite x = true -> is_finite y = true -> held (B2R x - B2R y) ->
  is_finite (Bminus mode_NE x y) = true /\ B2R (Bminus mode_NE x y) = (B2R x - B2R y)%R.
Proof.
  intros Fx Fy H. destruct (held_rnd _ H) as [E L]. pose proof (Bminus_correct 53 1024 _ _ mode_NE x y Fx Fy) as C.
  change (round radix2 _ _ _) with (rnd (B2R x - B2R y)) in C. rewrite L, E in C. destruct C as (C1 & C2 & _). auto.
Qed.
Lemma mult_exact (x y : bin) : is_finite x = true -> is_finite y = true -> held (B2R x * B2R y) ->
  is_finite (Bmult mode_NE x y) = true /\ B2R (Bmult mode_NE x y) = (B2R x * B2R y)%R.
Proof.
  intros Fx Fy H. destruct (held_rnd _ H) as [E L]. pose proof (Bmult_correct 53 1024 _ _ mode_NE x y) as C.
  change (round radix2 _ _ _) with (rnd (B2R x * B2R y)) in C. rewrite L, E in C. destruct C as (C1 & C2 & _). rewrite C2, Fx, Fy. auto.
Qed.
Lemma div_exact (x y : bin) : is_finite x = true -> B2R y <> 0%R -> held (B2R x / B2R y) ->
  is_finite (Bdiv mode_NE x y) = true /\ B2R (Bdiv mode_NE x y) = (B2R x / B2R y)%R.
Proof.
  intros Fx Ny H. destruct (held_rnd _ H) as [E L]. pose proof (Bdiv_correct 53 1024 _ _ mode_NE x y Ny) as C.
  change (round radix2 _ _ _) with (rnd (B2R x / B2R y)) in C. rewrite L, E in C. destruct C as (C1 & C2 & _). rewrite C2. auto.
Qed.
Lemma Q2R_nonzero q : ~ (q == 0)%Q -> Q2R q <> 0%R.
Proof. intros N E. apply N, eqR_Qeq. rewrite E. symmetry. apply RMicromega.Q2R_0. Qed.

Lemma double_binop ok f g x y x' y' q : representable is_double ok -> is_double x x' -> is_double y y' ->
  (forall a b : bin, is_finite a = true -> is_finite b = true -> B2R a = Q2R x -> B2R b = Q2R y -> ok q = true -> (q == g)%Q -> held (Q2R g) ->
     exists c : bin, f (B2SF a) (B2SF b) = B2SF c /\ is_finite c = true /\ B2R c = Q2R g) ->
  ok q = true -> (q == g)%Q -> ret never (Ok (f x' y')) (is_double q).
Proof.
  intros H Hx Hy G Hq E. apply is_double_bin in Hx as (a & -> & Fa & Va). apply is_double_bin in Hy as (b & -> & Fb & Vb).
  apply ret_ok, is_double_bin. rewrite (Qeq_eqR _ _ E). apply G; auto. rewrite <- (Qeq_eqR _ _ E). apply (held_ok ok); auto.
Qed.
Lemma double_add ok x y x' y' : representable is_double ok -> is_double x x' -> is_double y y' -> sim never is_double (watch ok (x + y)) (Ok (SFadd 53 1024 x' y')).
Proof.
  intros H Hx Hy q E. apply watch_ok in E as [E Hq]. eapply double_binop; eauto. intros a b Fa Fb Va Vb _ _ Hh. rewrite add_equiv.
  eexists. split; [reflexivity|]. rewrite Q2R_plus in *. rewrite <- Va, <- Vb in *. apply plus_exact; auto.
Qed.
Lemma double_sub ok x y x' y' : representable is_double ok -> is_double x x' -> is_double y y' -> sim never is_double (watch ok (x - y)) (Ok (dsub x' y')).
Proof.
  intros H Hx Hy q E. apply watch_ok in E as [E Hq]. eapply double_binop; eauto. intros a b Fa Fb Va Vb _ _ Hh. rewrite dsub_equiv.
  eexists. split; [reflexivity|]. rewrite Q2R_minus in *. rewrite <- Va, <- Vb in *. apply minus_exact; auto.
Qed.
Lemma double_mul ok x y x' y' : representable is_double ok -> is_double x x' -> is_double y y' -> sim never is_double (watch ok (x * y)) (Ok (SFmul 53 1024 x' y')).
Proof.
  intros H Hx Hy q E. apply watch_ok in E as [E Hq]. eapply double_binop; eauto. intros a b Fa Fb Va Vb _ _ Hh. rewrite mul_equiv.
  eexists. split; [reflexivity|]. rewrite Q2R_mult in *. rewrite <- Va, <- Vb in *. apply mult_exact; auto.
Qed.
Lemma double_div ok x y x' y' : representable is_double ok -> is_double x x' -> is_double y y' -> sim never is_double (watched_div ok x y) (Ok (SFdiv 53 1024 x' y')).
Proof.
  intros H Hx Hy q E. apply watched_div_ok in E as (N & E & Hq). eapply double_binop; eauto. intros a b Fa Fb Va Vb _ _ Hh. rewrite div_equiv.
  eexists. split; [reflexivity|]. apply Q2R_nonzero in N as N'. rewrite Q2R_div in * by exact N. rewrite <- Va, <- Vb in *. apply div_exact; auto.
Qed.
Lemma double_neg ok x x' : is_double x x' -> sim never is_double (watch ok (- x)) (Ok (SFopp x')).
Proof.
  intros Hx q E. apply watch_ok in E as [E Hq]. apply is_double_bin in Hx as (a & -> & Fa & Va). apply ret_ok, is_double_bin. rewrite opp_equiv.
  exists (Bopp a). splits; auto; [rewrite is_finite_Bopp; exact Fa|]. rewrite B2R_Bopp, (Qeq_eqR _ _ E), Q2R_opp, Va. reflexivity.
Qed.
Lemma double_eqb x y x' y' : is_double x x' -> is_double y y' -> SFeqb x' y' = Qeq_bool x y.
Proof.
  intros Hx Hy. apply is_double_bin in Hx as (a & -> & Fa & Va). apply is_double_bin in Hy as (b & -> & Fb & Vb). rewrite eqb_equiv, Beqb_correct by auto.
  rewrite Va, Vb. destruct (Qeq_bool x y) eqn:E.
  - apply Qeq_bool_eq, Qeq_eqR in E. rewrite E. apply Req_bool_true. reflexivity.
  - apply Qeq_bool_neq in E. apply Req_bool_false. intros H. apply E, eqR_Qeq, H.
Qed.
Lemma double_const k : Z.abs k <= 2 ^ 53 -> is_double (inject_Z k) (double_of_int k).
Proof.
  intros H. destruct (of_int_exact k H) as (b & -> & V & F & _). apply is_double_bin. exists b. splits; auto. rewrite V.
  unfold Q2R, inject_Z. cbn [Qnum Qden]. field.
Qed.
Lemma double_ring ok : representable is_double ok -> ring_sim never is_double (watched ok) double_ops.
Proof.
  intros H. split; cbn [of_int fresh add sub mul neg eqb addA subA watched double_ops]; intros.
  - apply double_const. cbn in *. intuition subst; cbn; lia.
  - exact Logic.I.
  - apply double_add; auto.
  - apply double_sub; auto.
  - apply double_mul; auto.
  - apply double_neg; auto.
  - intros b [= <-]. apply ret_ok. symmetry. apply double_eqb; auto.
  - apply double_add; auto. apply rd_sim; auto.
  - apply double_sub; auto. apply rd_sim; auto.
Qed.
Lemma double_mulA ok x y x' y' : representable is_double ok -> is_double x x' -> option_rel is_double y y' -> sim never is_double (mulA (watched ok) x y) (mulA double_ops x' y').
Proof. intros. apply double_mul; auto. apply rd_sim; auto. Qed.
Lemma double_prod ok : representable is_double ok -> prod_sim never is_double is_double (watched ok) double_ops.
Proof.
  intros H. split; auto; intros.
  - apply double_mulA; auto.
  - apply double_div; auto.
Qed.
Lemma double_field ok : representable is_double ok -> div_sim never is_double (watched ok) double_ops.
Proof.
  intros H. split; cbn [div divA watched double_ops]; intros.
  - apply double_div; auto.
  - apply double_div; auto. apply rd_sim; auto.
Qed.

(** *** int *)
Lemma inject_inj a b : (inject_Z a == inject_Z b)%Q -> a = b.
Proof. unfold Qeq. cbn. lia. Qed.
Lemma int32_op ok q g z : representable is_int32 ok -> (g == inject_Z z)%Q -> watch ok g = Ok q -> ret never (i32 z) (is_int32 q).
Proof.
  intros H G E. apply watch_ok in E as [E Hq]. destruct (H q Hq) as (w & F & V). assert (w = z). { apply inject_inj. rewrite V, E. exact G. } subst w.
  rewrite i32_fits by exact F. apply ret_ok. split; auto.
Qed.
Lemma int32_quot ok q x y x' y' : representable is_int32 ok -> is_int32 x x' -> is_int32 y y' -> watched_div ok x y = Ok q -> ret never (int32_div x' y') (is_int32 q).
Proof.
  intros H [Fx Vx] [Fy Vy] E. apply watched_div_ok in E as (N & E & Hq). destruct (H q Hq) as (w & F & V).
  assert (Ny : y' <> 0) by (intros ->; apply N; rewrite <- Vy; reflexivity).
  assert (M : x' = w * y'). { apply inject_inj. rewrite inject_Z_mult, V, E, Vx, Vy. field. exact N. }
  unfold int32_div. destruct (Z.eqb_spec y' 0); [contradiction|]. rewrite M, Z.quot_mul by exact Ny. rewrite i32_fits by exact F. apply ret_ok. split; auto.
Qed.
Ltac q32 := match goal with |- (?a == ?b)%Q => rewrite ?inject_Z_plus, ?inject_Z_mult, ?inject_Z_opp; auto end.
Lemma int32_ring ok : representable is_int32 ok -> ring_sim never is_int32 (watched ok) int32_ops.
Proof.
  assert (D : forall x y x' y', is_int32 x x' -> option_rel is_int32 y y' -> is_int32 (rd x y) (rd x' y')) by (intros; apply rd_sim; auto).
  intros H. split; cbn [of_int fresh add sub mul neg eqb addA subA watched int32_ops].
  - intros k Hk. split; [unfold fits, INT32_MIN, INT32_MAX; cbn in Hk; lia|reflexivity].
  - exact Logic.I.
  - intros x y x' y' [_ Vx] [_ Vy] q E. eapply int32_op; eauto. rewrite inject_Z_plus, Vx, Vy. reflexivity.
  - intros x y x' y' [_ Vx] [_ Vy] q E. eapply int32_op; eauto. unfold Z.sub. rewrite inject_Z_plus, inject_Z_opp, Vx, Vy. reflexivity.
  - intros x y x' y' [_ Vx] [_ Vy] q E. eapply int32_op; eauto. rewrite inject_Z_mult, Vx, Vy. reflexivity.
  - intros x x' [_ Vx] q E. eapply int32_op; eauto. rewrite inject_Z_opp, Vx. reflexivity.
  - intros x y x' y' [_ Vx] [_ Vy] b [= <-]. apply ret_ok. destruct (Z.eqb_spec x' y') as [->|N].
    + apply Qeq_eq_bool. rewrite <- Vx, <- Vy. reflexivity.
    + destruct (Qeq_bool x y) eqn:E; auto. apply Qeq_bool_eq in E. exfalso. apply N, inject_inj. rewrite Vx, Vy. exact E.
  - intros x y x' y' Hx Hy q E. destruct (D _ _ _ _ Hx Hy) as [_ Vy]. destruct Hx as [_ Vx]. eapply int32_op; eauto. rewrite inject_Z_plus, Vx, Vy. reflexivity.
  - intros x y x' y' Hx Hy q E. destruct (D _ _ _ _ Hx Hy) as [_ Vy]. destruct Hx as [_ Vx]. eapply int32_op; eauto. unfold Z.sub. rewrite inject_Z_plus, inject_Z_opp, Vx, Vy. reflexivity.
Qed.
Lemma int32_mulA ok x y x' y' : representable is_int32 ok -> is_int32 x x' -> option_rel is_int32 y y' -> sim never is_int32 (mulA (watched ok) x y) (mulA int32_ops x' y').
Proof.
  intros H Hx Hy q E. destruct (rd_sim _ _ _ _ _ Hx Hy) as [_ Vy]. destruct Hx as [_ Vx]. eapply int32_op; [exact H| |exact E]. rewrite inject_Z_mult, Vx, Vy. reflexivity.
Qed.
Lemma int32_field ok : representable is_int32 ok -> div_sim never is_int32 (watched ok) int32_ops.
Proof.
  intros H. split; cbn [div divA watched int32_ops].
  - intros x y x' y' Hx Hy q E. eapply int32_quot; eauto.
  - intros x y x' y' Hx Hy q E. eapply int32_quot; eauto. apply rd_sim; auto.
Qed.
Lemma int32_prod ok : representable is_int32 ok -> prod_sim never is_int32 is_int32 (watched ok) int32_ops.
Proof.
  intros H. split; auto.
  - intros. apply int32_mulA; auto.
  - intros x y x' y' Hx Hy q E. eapply int32_quot; eauto.
Qed.

(** *** Int *)
Section IntSim.
Variable (ab : halt -> Prop) (P : Z -> Prop) (ok : Q -> bool).
Hypothesis PC : forall k, In k [0; 1; -1] -> P k.
Hypothesis H : representable (is_Int P) ok.
Lemma held_Int q z : ok q = true -> (inject_Z z == q)%Q -> P z.
Proof. intros Hq E. destruct (H q Hq) as (w & _ & Pw & V). replace z with (val w); auto. apply inject_inj. rewrite V, E. reflexivity. Qed.
Lemma Int_op m q g z : (g == inject_Z z)%Q -> watch ok g = Ok q -> (exists r, m = Ok r /\ canonical r /\ val r = z) -> ret ab m (is_Int P q).
Proof.
  intros G E (r & -> & C & V). apply watch_ok in E as [E Hq]. apply ret_ok. split; auto. assert (V' : (inject_Z (val r) == q)%Q) by (rewrite V, E, G; reflexivity).
  split; auto. apply (held_Int q); auto.
Qed.
Lemma Int_ring : ring_sim ab (is_Int P) (watched ok) Int_ops.
Proof.
  split; cbn [of_int fresh add sub mul neg eqb addA subA watched Int_ops].
  - intros k Hk. destruct (Int_const_exact k) as [C V]; [cbn in Hk; lia|]. split; auto. rewrite V. split; [auto|reflexivity].
  - exact Logic.I.
  - intros x y x' y' (Cx & _ & Vx) (Cy & _ & Vy) q E. eapply Int_op; [|exact E|apply op_add_ok; auto]. rewrite inject_Z_plus, Vx, Vy. reflexivity.
  - intros x y x' y' (Cx & _ & Vx) (Cy & _ & Vy) q E. eapply Int_op; [|exact E|apply op_sub_ok; auto]. unfold Z.sub. rewrite inject_Z_plus, inject_Z_opp, Vx, Vy. reflexivity.
  - intros x y x' y' (Cx & _ & Vx) (Cy & _ & Vy) q E. eapply Int_op; [|exact E|apply op_mul_ok; auto]. rewrite inject_Z_mult, Vx, Vy. reflexivity.
  - intros x x' (Cx & _ & Vx) q E. eapply Int_op; [|exact E|]; cycle 1.
    + destruct (op_neg_ok x') as (r & Er & V & _ & _ & _ & _ & C); auto. exists r. splits; auto. exact V.
    + rewrite inject_Z_opp, Vx. reflexivity.
  - intros x y x' y' (Cx & _ & Vx) (Cy & _ & Vy) b [= <-]. rewrite op_eq_spec by auto. apply ret_ok. destruct (Z.eqb_spec (val x') (val y')) as [E|N].
    + apply Qeq_eq_bool. rewrite <- Vx, <- Vy, E. reflexivity.
    + destruct (Qeq_bool x y) eqn:E; auto. apply Qeq_bool_eq in E. exfalso. apply N, inject_inj. rewrite Vx, Vy. exact E.
  - intros x y x' y' Hx Hy q E. destruct (rd_sim _ _ _ _ _ Hx Hy) as (Cy & _ & Vy). destruct Hx as (Cx & _ & Vx).
    eapply Int_op; [|exact E|apply (addsub_assign_ok false); auto]; cycle 1.
    + intros z ->. destruct y; cbn in Hy; [|contradiction]. destruct Hy as (C & _). auto.
    + rewrite inject_Z_plus, Vx, Vy. reflexivity.
  - intros x y x' y' Hx Hy q E. destruct (rd_sim _ _ _ _ _ Hx Hy) as (Cy & _ & Vy). destruct Hx as (Cx & _ & Vx).
    eapply Int_op; [|exact E|apply (addsub_assign_ok true); auto]; cycle 1.
    + intros z ->. destruct y; cbn in Hy; [|contradiction]. destruct Hy as (C & _). auto.
    + unfold Z.sub. rewrite inject_Z_plus, inject_Z_opp, Vx, Vy. reflexivity.
Qed.
Lemma is_Int_0 q x : is_Int P q x -> is_Int0 P q x.
Proof. intros (C & Px & V). unfold is_Int0. splits; auto. Qed.
Lemma Int_mulA x y x' y' : is_Int0 P x x' -> is_Int P y y' -> sim ab (is_Int0 P) (mulA (watched ok) x (Some y)) (mulA Int_ops x' (Some y')).
Proof.
  intros (Wx & Tx & _ & Vx) (Cy & _ & Vy) q E. apply watch_ok in E as [E Hq]. cbn [rd] in E.
  destruct (mul_assign_ok x' (Some y')) as (r & Er & W & V & _ & T & _); auto; [intros ? [= <-]; auto|]. cbn [rd] in *.
  cbn [mulA Int_ops]. rewrite Er. apply ret_ok. assert (V' : (inject_Z (val r) == q)%Q) by (rewrite V, E, inject_Z_mult, Vx, Vy; reflexivity).
  split; auto. split; [|split; auto; apply (held_Int q); auto].
  intros N. assert (val x' <> 0) by (intros Z0; apply N; rewrite V, Z0; reflexivity). apply T; auto.
  left. intros A0. rewrite <- abs_val in A0 by auto. lia.
Qed.
(** division: it may abort *)
Hypothesis Hab : ab HAbort \/ forall z, P z -> Z.abs z < 10 ^ 18.
Lemma Int_quot x y x' y' : is_Int0 P x x' -> is_Int0 P y y' -> sim ab (is_Int P) (watched_div ok x y) (op_div x' y').
Proof.
  intros (Wx & Tx & Px & Vx) (Wy & Ty & Py & Vy) q E. apply watched_div_ok in E as (N & E & Hq).
  assert (Ny : val y' <> 0) by (intros Z0; apply N; rewrite <- Vy, Z0; reflexivity).
  assert (Ox : okrep x'). { split; auto. intros A0. apply Tx. intros Z0. apply A0. rewrite <- abs_val by auto. rewrite Z0. reflexivity. }
  assert (D : div_safe (Z.abs (val x')) (Z.abs (val y')) \/ ~ div_safe (Z.abs (val x')) (Z.abs (val y')) /\ ab HAbort).
  { destruct (div_safe_dec (Z.abs (val x')) (Z.abs (val y'))) as [D|D]; [lia|auto|]. destruct Hab as [Ha|Ha]; auto.
    left. apply div_safe_small. pose proof (Ha _ Px). lia. }
  destruct D as [D|[D Ha]]; [|unfold op_div; rewrite divide_okrep_unsafe by auto; right; exists HAbort; auto].
  destruct (divide_okrep x' y' Ox Wy Ny D) as (r & Er & C & V). unfold op_div. rewrite Er. apply ret_ok.
  destruct (H q Hq) as (w & _ & Pw & Vw).
  assert (M : val x' = val w * val y'). { apply inject_inj. rewrite inject_Z_mult, Vw, E, Vx, Vy. field. exact N. }
  rewrite M, Z.quot_mul in V by exact Ny. split; auto. rewrite V. auto.
Qed.
Lemma Int_field : div_sim ab (is_Int P) (watched ok) Int_ops.
Proof.
  split; cbn [div divA watched Int_ops].
  - intros. apply Int_quot; apply is_Int_0; auto.
  - intros. apply Int_quot; apply is_Int_0; auto. apply rd_sim; auto.
Qed.
Lemma Int_prod : prod_sim ab (is_Int P) (is_Int0 P) (watched ok) Int_ops.
Proof.
  split; intros.
  - apply is_Int_0; auto.
  - apply Int_mulA; auto.
  - apply Int_quot; auto.
Qed.
End IntSim.

(** *** From simulations to results *)
Lemma sim_follows {A B} (R : A -> B -> Prop) m m' : sim never R m m' -> follows R m m'.
Proof. intros G a E. apply ret_False, (G a E). Qed.
Lemma ssim_follows {A B} (R : A -> B -> Prop) p p' : ssim never R p p' -> sfollows R p p'.
Proof. intros G s E. destruct (G s E) as [[E1 E2]|(h & [] & _)]. exists (fst p'). split; auto. destruct p'; cbn in *; congruence. Qed.

Lemma integral_Z q : integral q = true -> (q == inject_Z (Qnum (Qred q)))%Q.
Proof.
  unfold integral. rewrite Pos.eqb_eq. intros E. rewrite <- (Qred_correct q) at 1. destruct (Qred q) as [n d]. cbn in *. subst. reflexivity.
Qed.
Lemma representable_small b : b <= exact_limit -> representable is_double (small_integral b).
Proof.
  intros Hb q E. apply andb_prop in E as [E1 E2]. apply Z.leb_le in E2. exists (double_of_int (Qnum (Qred q))).
  destruct (double_const (Qnum (Qred q))) as (D1 & D2 & D3); [unfold exact_limit in Hb; lia|]. split; [exact D1|]. split; [exact D2|].
  rewrite D3. symmetry. apply integral_Z, E1.
Qed.
Lemma representable_dyadic : representable is_double dyadic.
Proof.
  intros q E. apply orb_prop in E as [E|E]; [|apply (representable_small exact_limit); auto; lia]. apply andb_prop in E as [E1 E2]. apply Z.leb_le in E1.
  apply existsb_exists in E2 as (k & Hk & E2). apply in_seq in Hk. apply Pos.eqb_eq in E2.
  set (n := Qnum (Qred q)) in *. set (p := Pos.of_succ_nat k) in *.
  assert (V : Q2R q = (IZR n * bpow radix2 (- Zpos p))%R).
  { rewrite <- (Qeq_eqR _ _ (Qred_correct q)). unfold Q2R. fold n. rewrite E2. f_equal. rewrite bpow_opp. f_equal.
    change (bpow radix2 (Zpos p)) with (IZR (Zpower_pos 2 p)). f_equal. change (Zpower_pos 2 p) with (2 ^ Zpos p). rewrite Pos2Z.inj_pow. reflexivity. }
  assert (F : generic_format radix2 fexp (Q2R q)).
  { rewrite V. apply format_Z; [unfold exact_limit in E1; lia|]. unfold p. lia. }
  pose proof (binary_normalize_correct 53 1024 Hprec Hmax mode_NE n (- Zpos p) false) as C. cbv zeta in C.
  assert (E : F2R (Float radix2 n (- Zpos p)) = Q2R q) by (rewrite V; reflexivity). rewrite E in C.
  change (round radix2 _ _ _) with (rnd (Q2R q)) in C. rewrite (rnd_format _ F), below_max in C.
  - destruct C as (C1 & C2 & _). eexists. apply is_double_bin. eexists. split; [reflexivity|]. split; [exact C2|exact C1].
  - rewrite V, Rabs_mult, <- abs_IZR. rewrite (Rabs_pos_eq (bpow _ _)) by apply bpow_ge_0.
    replace (IZR (2 ^ 64)) with (IZR (2 ^ 64) * 1)%R by ring. apply Rmult_le_compat; [apply IZR_le; lia|apply bpow_ge_0|apply IZR_le; unfold exact_limit in E1; lia|].
    change 1%R with (bpow radix2 0). apply bpow_le. lia.
Qed.

(** *** Doubles that hold integers *)
Lemma whole_double d z : whole d z <-> is_double (inject_Z z) d.
Proof. reflexivity. Qed.
Lemma small_ok z : Z.abs z <= exact_limit -> watch (small_integral exact_limit) (inject_Z z) = Ok (inject_Z z).
Proof.
  intros Hz. unfold watch. assert (E : Qred (inject_Z z) = inject_Z z).
  { unfold inject_Z, Qred. pose proof (Z.ggcd_gcd z 1) as G. pose proof (Z.ggcd_correct_divisors z 1) as D. destruct (Z.ggcd z 1) as [g [a b]]. cbn in *.
    rewrite Z.gcd_1_r in G. subst g. destruct D as [-> Db]. assert (b = 1) by lia. subst b. f_equal. lia. }
  rewrite E. unfold small_integral, integral. rewrite E. cbn [Qden Qnum inject_Z Pos.eqb andb]. apply Z.leb_le in Hz. rewrite Hz. reflexivity.
Qed.
Lemma whole_op (f : Z -> Z -> Z) (g : Q -> Q -> Q) op :
  (forall a b, (g (inject_Z a) (inject_Z b) == inject_Z (f a b))%Q) ->
  (forall x y x' y', is_double x x' -> is_double y y' -> sim never is_double (watch (small_integral exact_limit) (g x y)) (op x' y')) ->
  forall ab x y a b, whole x a -> whole y b -> Z.abs (f a b) <= exact_limit -> ret ab (op x y) (fun r => whole r (f a b)).
Proof.
  intros Hg Hop ab x y a b Hx Hy L. assert (E : watch (small_integral exact_limit) (g (inject_Z a) (inject_Z b)) = Ok (inject_Z (f a b))).
  { rewrite <- small_ok by exact L. unfold watch. rewrite (Qred_complete _ _ (Hg a b)). reflexivity. }
  destruct (ret_False _ _ (Hop _ _ _ _ Hx Hy _ E)) as (r & -> & Hr). apply ret_ok, Hr.
Qed.
Lemma limit_ok : representable is_double (small_integral exact_limit).
Proof. apply representable_small. lia. Qed.
Lemma whole_add ab x y a b : whole x a -> whole y b -> Z.abs (a + b) <= exact_limit -> ret ab (Ok (SFadd 53 1024 x y)) (fun r => whole r (a + b)).
Proof. revert ab x y a b. apply (whole_op Z.add Qplus (fun x y => Ok (SFadd 53 1024 x y))); [intros; rewrite inject_Z_plus; reflexivity|]. intros. apply double_add; auto. apply limit_ok. Qed.
Lemma whole_sub ab x y a b : whole x a -> whole y b -> Z.abs (a - b) <= exact_limit -> ret ab (Ok (dsub x y)) (fun r => whole r (a - b)).
Proof.
  revert ab x y a b. apply (whole_op Z.sub Qminus (fun x y => Ok (dsub x y))); [intros; unfold Z.sub; rewrite inject_Z_plus, inject_Z_opp; reflexivity|].
  intros. apply double_sub; auto. apply limit_ok.
Qed.
Lemma whole_mul ab x y a b : whole x a -> whole y b -> Z.abs (a * b) <= exact_limit -> ret ab (Ok (SFmul 53 1024 x y)) (fun r => whole r (a * b)).
Proof. revert ab x y a b. apply (whole_op Z.mul Qmult (fun x y => Ok (SFmul 53 1024 x y))); [intros; rewrite inject_Z_mult; reflexivity|]. intros. apply double_mul; auto. apply limit_ok. Qed.
Lemma whole_zero : whole (of_int double_ops 0) 0.
Proof. apply double_const. cbn. lia. Qed.
Lemma sums_small n p k : total n (fun k => Z.abs (p k)) <= exact_limit -> (k < n)%nat -> Z.abs (p k) <= exact_limit /\ Z.abs (total k p + p k) <= exact_limit.
Proof.
  intros L Hk. pose proof (total_mono (S k) n (fun k => Z.abs (p k)) (fun i => Z.abs_nonneg (p i)) Hk) as Q. cbn beta in Q.
  pose proof (total_bound (S k) p (fun k => Z.abs (p k)) (fun _ _ => Z.le_refl _)) as P. change (total (S k) p) with (total k p + p k) in P.
  change (total (S k) (fun k => Z.abs (p k))) with (total k (fun k => Z.abs (p k)) + Z.abs (p k)) in *.
  pose proof (total_mono 0 k (fun k => Z.abs (p k)) (fun i => Z.abs_nonneg (p i)) (Nat.le_0_l k)) as P0. change (total 0 _) with 0 in P0. lia.
Qed.
Lemma dot_whole x y n v w : seq_of whole x n v -> seq_of whole y n w -> total n (fun i => Z.abs (v i * w i)) <= exact_limit ->
  exists d, dot double_ops x y = Ok d /\ whole d (total n (fun i => v i * w i)).
Proof.
  intros Hx Hy L. apply ret_False. set (p := fun i => v i * w i).
  unfold dot. replace (length x) with n by (symmetry; apply Hx). replace (length y) with n by (symmetry; apply Hy).
  rewrite Nat.eqb_refl. cbn [negb]. apply ret_final.
  apply (sret_for _ (fun i r => whole r (total i p)) n 0); [apply whole_zero|].
  intros i r Hi Hr. destruct (sums_small n p i L ltac:(lia)) as [L1 L2]. eapply sret_eval; [|intros a Ha; apply sret_done; exact Ha].
  eapply ret_bind; [apply (seqP_get _ x n _ i Hx); lia|]. intros a Ha.
  eapply ret_bind; [apply (seqP_get _ y n _ i Hy); lia|]. intros b Hb.
  eapply ret_bind; [apply (whole_mul _ a b _ _ Ha Hb); exact L1|]. intros q Hq. apply (whole_add _ r q _ _ Hr Hq). exact L2.
Qed.
Lemma product_whole x y n m p g h : mat_of whole x n m g -> mat_of whole y m p h ->
  (forall i j, (i < n)%nat -> (j < p)%nat -> total m (fun k => Z.abs (g i k * h k j)) <= exact_limit) ->
  exists d, M_product double_ops x y = Ok d /\ mat_of whole d n p (fun i j => total m (fun k => g i k * h k j)).
Proof.
  intros Hx Hy L. apply ret_False. set (q := fun i j k => g i k * h k j). eapply ret_mono.
  - apply (M_product_pt double_ops never whole (fun k i j r => whole r (total k (q i j))) (fun i k j r => whole r (q i j k)) x y n m p g h); auto.
    + intros i j Hi Hj. apply whole_zero.
    + intros i k j a b Hi Hk Hj Ha Hb. destruct (sums_small m (q i j) k (L i j Hi Hj) Hk) as [L1 L2]. apply (whole_mul _ a b _ _ Ha Hb). exact L1.
    + intros i k j a e Hi Hk Hj Ha He. destruct (sums_small m (q i j) k (L i j Hi Hj) Hk) as [L1 L2]. apply (whole_add _ e a _ _ He Ha). exact L2.
  - intros d Hd. apply mat_of_P. exact Hd.
Qed.
(** cofactor expansion of integers up to a bound, watched *)
Lemma watch_integer g z : (g == inject_Z z)%Q -> Z.abs z <= exact_limit -> exists r, watch (small_integral exact_limit) g = Ok r /\ r = inject_Z z.
Proof. intros E L. exists (inject_Z z). split; auto. rewrite <- small_ok by exact L. unfold watch. rewrite (Qred_complete _ _ E). reflexivity. Qed.
Lemma expansion_watched b n m g : 0 <= b -> mat_of (fun q z => q = inject_Z z /\ Z.abs z <= b) m n n g -> det_bound n b <= exact_limit ->
  (exists z, row_cofactor_expansion (watched (small_integral exact_limit)) m = Ok (inject_Z z)) /\
  (exists z, col_cofactor_expansion (watched (small_integral exact_limit)) m = Ok (inject_Z z)).
Proof.
  intros Hb Hm Hn. unfold row_cofactor_expansion, col_cofactor_expansion. destruct (mat_of_dims _ _ _ _ _ Hm) as (Dr & _ & _). rewrite Dr.
  set (E := watched (small_integral exact_limit)). set (R := fun q z => q = inject_Z z).
  assert (Rmul : forall x y a b, R x a -> R y b -> Z.abs (a * b) <= exact_limit -> exists r, mul E x y = Ok r /\ R r (a * b)).
  { intros x y a c -> -> L. apply watch_integer; auto. rewrite inject_Z_mult. reflexivity. }
  assert (Rsub : forall x y a b, R x a -> R y b -> Z.abs (a - b) <= exact_limit -> exists r, watch (small_integral exact_limit) (x - y) = Ok r /\ R r (a - b)).
  { intros x y a c -> -> L. apply watch_integer; auto. unfold Z.sub. rewrite inject_Z_plus, inject_Z_opp. reflexivity. }
  assert (Radd : forall x y a b, R x a -> R y b -> Z.abs (a + b) <= exact_limit -> exists r, addA E x (Some y) = Ok r /\ R r (a + b)).
  { intros x y a c -> -> L. apply watch_integer; auto. rewrite inject_Z_plus. reflexivity. }
  assert (Reqb : forall x y a b, R x a -> R y b -> exists e, eqb E x y = Ok e) by (intros; eexists; reflexivity).
  split.
  - destruct (row_expansion_small E R exact_limit ltac:(discriminate) eq_refl Rmul Rsub Rsub Radd Reqb b (S n) Hb n m g Hm ltac:(lia) Hn) as (d & Ed & z & -> & _).
    exists z. exact Ed.
  - destruct (col_expansion_small E R exact_limit ltac:(discriminate) eq_refl Rmul Rsub Rsub Radd Reqb b (S n) Hb n m g Hm ltac:(lia) Hn) as (d & Ed & z & -> & _).
    exists z. exact Ed.
Qed.
(** the table of a matrix's values *)
Lemma table_of {A} r c (g : nat -> nat -> A) : mat_of eq (table r c g) r c g.
Proof.
  split; [reflexivity|]. split; [reflexivity|]. split; [unfold table; cbn; rewrite map_length, seq_length; reflexivity|].
  intros i j Hi Hj. exists (g i j). split; auto. unfold table. cbn [data].
  rewrite nth_error_map. assert (L : (i * c + j < r * c)%nat) by nia.
  rewrite (nth_error_nth' _ 0%nat) by (rewrite seq_length; exact L). rewrite seq_nth by exact L. cbn [option_map Nat.add].
  rewrite Nat.div_add_l by lia. rewrite (Nat.div_small j c Hj). rewrite Nat.add_0_r.
  rewrite Nat.add_comm, Nat.mod_add by lia. rewrite Nat.mod_small by lia. reflexivity.
Qed.
Lemma table_sim {A T} (R : A -> T -> Prop) m r c g : mat_of (fun x q => R q x) m r c g -> mat_sim R (table r c g) m.
Proof.
  intros (Dr & Dc & L & H). split; [symmetry; exact Dr|]. split; [symmetry; exact Dc|].
  assert (G : forall (x : list (option A)) (y : list (option T)), length x = length y ->
    (forall k, (k < length x)%nat -> exists a b, nth_error x k = Some (Some a) /\ nth_error y k = Some (Some b) /\ R a b) -> Forall2 (opt R) x y).
  { induction x as [|a x IH]; intros [|b y] E G; try discriminate; constructor.
    - destruct (G 0%nat) as (p & q & [= ->] & [= ->] & Hpq); [cbn; lia|exact Hpq].
    - apply IH; [cbn in E; lia|]. intros k Hk. apply (G (S k)). cbn. lia. }
  destruct (table_of r c g) as (_ & _ & Lt & Ht). apply G; [rewrite Lt, L; reflexivity|]. rewrite Lt. intros k Hk.
  destruct c as [|c]; [lia|]. pose proof (Nat.div_mod_eq k (S c)) as Ek. pose proof (Nat.mod_upper_bound k (S c) ltac:(lia)) as Mk.
  assert (Dk : (k / S c < r)%nat) by (apply Nat.div_lt_upper_bound; lia).
  replace k with (k / S c * S c + k mod S c)%nat by lia.
  destruct (Ht _ _ Dk Mk) as (a & Ea & ->). destruct (H _ _ Dk Mk) as (b & Eb & Hb). eauto.
Qed.
Lemma sim_table {A T} (R : A -> T -> Prop) x y r c g : mat_sim R x y -> mat_of eq x r c g -> mat_of (fun b q => R q b) y r c g.
Proof.
  intros (E1 & E2 & F) (H1 & H2 & H3 & H). split; [congruence|]. split; [congruence|]. split; [rewrite <- H3; clear - F; induction F; cbn; congruence|].
  intros i j Hi Hj. destruct (H i j Hi Hj) as (q & Eq & ->). clear - F Eq. revert Eq. generalize (i * c + j)%nat. induction F as [|a b la lb Hab F IH]; intros [|k]; cbn; try discriminate.
  - intros [= ->]. destruct b as [b|]; [|contradiction]. exists b. auto.
  - auto.
Qed.
Lemma whole_table m r c g : mat_of whole m r c g -> mat_sim is_double (table r c (fun i j => inject_Z (g i j))) m.
Proof. intros H. apply table_sim. exact H. Qed.
