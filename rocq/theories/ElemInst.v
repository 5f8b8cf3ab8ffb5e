(** The element types Int, Frac and exact types have exact operations. *)
From Coq Require Import QArith.
From Verif Require PropsFrac.
From Verif Require Import Base IntModel IntSpec IntBasics IntAddSub IntMul IntDiv PropsInt FracModel FracSpec FracProofs
  ElemModel ElemSpec ElemProofs.
Local Open Scope Z_scope.

(** *** Int *)
Lemma Int_const_exact k : -10 <= k <= 10 -> R_int (int_const k) k.
Proof.
  intros H. unfold int_const. destruct (Int_of_int64_ok k 0) as (x & E & V & C & _); [unfold INT64_MIN, INT64_MAX; lia|].
  rewrite E. split; auto. rewrite V. change (pw 0) with 1. lia.
Qed.
Lemma Int_add_exact : binary_exact never R_int (add Int_ops) Z.add.
Proof. intros x y a b [Cx <-] [Cy <-]. destruct (op_add_ok x y) as (r & E & C & V); auto. left. exists r. repeat split; auto; apply C. Qed.
Lemma Int_sub_exact : binary_exact never R_int (sub Int_ops) Z.sub.
Proof. intros x y a b [Cx <-] [Cy <-]. destruct (op_sub_ok x y) as (r & E & C & V); auto. left. exists r. repeat split; auto; apply C. Qed.
Lemma Int_mul_exact : binary_exact never R_int (mul Int_ops) Z.mul.
Proof. intros x y a b [Cx <-] [Cy <-]. destruct (op_mul_ok x y) as (r & E & C & V); auto. left. exists r. repeat split; auto; apply C. Qed.
Lemma Int_addA_exact : assign_exact never R_int R_int R_int (addA Int_ops) Z.add.
Proof.
  split; [intros x y a b [Cx <-] [Cy <-]|intros x a [Cx <-] _].
  - destruct (addsub_assign_ok false x (Some y)) as (r & E & C & V); auto; [intros ? [= <-]; auto|]. left. exists r. repeat split; auto; apply C.
  - destruct (addsub_assign_ok false x None) as (r & E & C & V); auto; [discriminate|]. left. exists r. repeat split; auto; apply C.
Qed.
Lemma Int_subA_exact : assign_exact never R_int R_int R_int (subA Int_ops) Z.sub.
Proof.
  split; [intros x y a b [Cx <-] [Cy <-]|intros x a [Cx <-] _].
  - destruct (addsub_assign_ok true x (Some y)) as (r & E & C & V); auto; [intros ? [= <-]; auto|]. left. exists r. repeat split; auto; apply C.
  - destruct (addsub_assign_ok true x None) as (r & E & C & V); auto; [discriminate|]. left. exists r. repeat split; auto; apply C.
Qed.
Lemma okrep_int0 r a : okrep r -> val r = a -> R_int0 r a.
Proof.
  intros [W T] V. unfold R_int0. splits; auto. intros N. assert (A : aval r <> 0) by (rewrite <- abs_val by auto; lia).
  unfold canonical. splits; auto.
Qed.
Lemma Int_mulA_exact : assign_exact never R_int R_int R_int0 (mulA Int_ops) Z.mul.
Proof.
  split; [intros x y a b [Cx <-] [Cy <-]|intros x a [Cx <-] _].
  - destruct (mul_assign_okrep x (Some y)) as (r & E & O & V & _); auto; [intros ? [= <-]; auto|]. left. exists r. split; auto. apply okrep_int0; auto.
  - destruct (mul_assign_okrep x None) as (r & E & O & V & _); auto; [discriminate|]. left. exists r. split; auto. apply okrep_int0; auto.
Qed.
(** non-zero divisors *)
Definition nonzero {T A} (R : T -> A -> Prop) (z : A -> Prop) (x : T) (a : A) : Prop := R x a /\ ~ z a.
Lemma Int_divA_exact : assign_exact may_abort R_int (nonzero R_int (fun a => a = 0)) R_int (divA Int_ops) Z.quot.
Proof.
  assert (G : forall x y, canonical x -> canonical y -> val y <> 0 -> ret may_abort (op_div x y) (fun z => R_int z (Z.quot (val x) (val y)))).
  { intros x y Cx Cy N. destruct (op_div_cases x y Cx Cy) as [[H _]|[(_ & _ & E)|(_ & _ & r & E & C & V)]]; [contradiction|apply ret_abort; auto|].
    left. exists r. split; auto. split; auto. }
  split; [intros x y a b [Cx <-] [[Cy <-] N]|intros x a [Cx <-] [_ N]]; apply G; auto.
Qed.
Lemma Int_eq_exact x y a b : R_int x a -> R_int y b -> ret never (eqb Int_ops x y) (fun r => r = true <-> a = b).
Proof.
  intros [Cx <-] [Cy <-]. left. exists (val x =? val y). split; [apply op_eq_spec; auto|]. apply Z.eqb_eq.
Qed.

(** *** Frac *)
Lemma Fval_ratio f : reduced f -> val (bot f) <> 0.
Proof. intros (_ & _ & P & _). lia. Qed.
Section FracExact.
Local Open Scope Q_scope.
Lemma ratio_add a b c d : b <> 0%Z -> d <> 0%Z -> ratio (a * d + c * b) (b * d) == ratio a b + ratio c d.
Proof.
  intros Hb Hd. unfold ratio. rewrite inject_Z_plus, !inject_Z_mult. field. split; intros H; [apply Hd|apply Hb]; apply (inject_Z_injective _ 0); exact H.
Qed.
Lemma ratio_sub a b c d : b <> 0%Z -> d <> 0%Z -> ratio (a * d - c * b) (b * d) == ratio a b - ratio c d.
Proof.
  intros Hb Hd. unfold ratio, Z.sub. rewrite inject_Z_plus, inject_Z_opp, !inject_Z_mult. field. split; intros H; [apply Hd|apply Hb]; apply (inject_Z_injective _ 0); exact H.
Qed.
Lemma ratio_mul a b c d : b <> 0%Z -> d <> 0%Z -> ratio (a * c) (b * d) == ratio a b * ratio c d.
Proof.
  intros Hb Hd. unfold ratio. rewrite !inject_Z_mult. field. split; intros H; [apply Hd|apply Hb]; apply (inject_Z_injective _ 0); exact H.
Qed.
Lemma ratio_div a b c d : b <> 0%Z -> d <> 0%Z -> c <> 0%Z -> ratio (a * d) (b * c) == ratio a b / ratio c d.
Proof.
  intros Hb Hd Hc. unfold ratio. rewrite !inject_Z_mult. field.
  repeat split; intros H; [apply Hd|apply Hb|apply Hc]; apply (inject_Z_injective _ 0); exact H.
Qed.
Lemma makes_ret m t b q : makes m t b -> b <> 0%Z -> ratio t b == q -> ret may_abort m (fun f => R_frac f q).
Proof.
  intros [[H _]|[(_ & _ & E)|(_ & _ & f & E & R & V)]] N Q; [contradiction|apply ret_abort; auto|].
  left. exists f. split; auto. split; auto. rewrite V. exact Q.
Qed.
Lemma leaves_ret p t b q : leaves p t b -> ratio t b == q -> ret may_abort (result p) (fun f => R_frac f q).
Proof.
  intros [(_ & f & E & R & V)|[_ E]] Q.
  - left. exists f. rewrite E. split; [reflexivity|]. split; auto. rewrite V. exact Q.
  - apply ret_abort. right. destruct p as [g r]. cbn in *. subst. reflexivity.
Qed.
Lemma parts_reduced f : reduced f -> parts f.
Proof. intros (A & B & _). split; auto. Qed.
Lemma Frac_const_exact k : (-10 <= k <= 10)%Z -> R_frac (frac_const k) (inject_Z k).
Proof.
  intros H. destruct (PropsFrac.C32_of_int k) as (f & E & R & V); [unfold INT32_MIN, INT32_MAX; lia|].
  unfold frac_const. rewrite E. split; auto.
Qed.
Lemma Frac_add_exact : binary_exact may_abort R_frac (add Frac_ops) Qplus.
Proof.
  intros x y a b [Rx Va] [Ry Vb]. pose proof (Fval_ratio x Rx); pose proof (Fval_ratio y Ry).
  eapply makes_ret; [apply F_add_makes; apply parts_reduced; auto|nia|]. rewrite <- Va, <- Vb. apply ratio_add; auto.
Qed.
Lemma Frac_sub_exact : binary_exact may_abort R_frac (sub Frac_ops) Qminus.
Proof.
  intros x y a b [Rx Va] [Ry Vb]. pose proof (Fval_ratio x Rx); pose proof (Fval_ratio y Ry).
  eapply makes_ret; [apply F_sub_makes; apply parts_reduced; auto|nia|]. rewrite <- Va, <- Vb. apply ratio_sub; auto.
Qed.
Lemma Frac_mul_exact : binary_exact may_abort R_frac (mul Frac_ops) Qmult.
Proof.
  intros x y a b [Rx Va] [Ry Vb]. pose proof (Fval_ratio x Rx); pose proof (Fval_ratio y Ry).
  eapply makes_ret; [apply F_mul_makes; apply parts_reduced; auto|nia|]. rewrite <- Va, <- Vb. apply ratio_mul; auto.
Qed.
Lemma Frac_addA_exact : assign_exact may_abort R_frac R_frac R_frac (addA Frac_ops) Qplus.
Proof.
  split; [intros x y a b [Rx Va] [Ry Vb]|intros x a [Rx Va] _]; pose proof (Fval_ratio x Rx).
  - pose proof (Fval_ratio y Ry). eapply leaves_ret; [apply F_add_assign_leaves; auto; intros ? [= <-]; auto|].
    cbn [rd]. rewrite <- Va, <- Vb. apply ratio_add; auto.
  - eapply leaves_ret; [apply F_add_assign_leaves; auto; discriminate|]. cbn [rd]. rewrite <- Va. apply ratio_add; auto.
Qed.
Lemma Frac_subA_exact : assign_exact may_abort R_frac R_frac R_frac (subA Frac_ops) Qminus.
Proof.
  split; [intros x y a b [Rx Va] [Ry Vb]|intros x a [Rx Va] _]; pose proof (Fval_ratio x Rx).
  - pose proof (Fval_ratio y Ry). eapply leaves_ret; [apply F_sub_assign_leaves; auto; intros ? [= <-]; auto|].
    cbn [rd]. rewrite <- Va, <- Vb. apply ratio_sub; auto.
  - eapply leaves_ret; [apply F_sub_assign_leaves; auto; discriminate|]. cbn [rd]. rewrite <- Va. apply ratio_sub; auto.
Qed.
Lemma Frac_mulA_exact : assign_exact may_abort R_frac R_frac R_frac (mulA Frac_ops) Qmult.
Proof.
  split; [intros x y a b [Rx Va] [Ry Vb]|intros x a [Rx Va] _]; pose proof (Fval_ratio x Rx).
  - pose proof (Fval_ratio y Ry). eapply leaves_ret; [apply F_mul_assign_leaves; auto; intros ? [= <-]; auto|].
    cbn [rd]. rewrite <- Va, <- Vb. apply ratio_mul; auto.
  - eapply leaves_ret; [apply F_mul_assign_leaves; auto; discriminate|]. cbn [rd]. rewrite <- Va. apply ratio_mul; auto.
Qed.
Lemma top_nonzero f q : Fval f == q -> ~ q == 0 -> val (top f) <> 0%Z.
Proof. intros V N H. apply N. rewrite <- V. unfold Fval, ratio. rewrite H. unfold Qdiv. apply Qmult_0_l. Qed.
Lemma Frac_divA_exact : assign_exact may_abort R_frac (nonzero R_frac (fun q => q == 0)) R_frac (divA Frac_ops) Qdiv.
Proof.
  split; [intros x y a b [Rx Va] [[Ry Vb] N]|intros x a [Rx Va] [_ N]]; pose proof (Fval_ratio x Rx).
  - pose proof (Fval_ratio y Ry). pose proof (top_nonzero y b Vb N).
    eapply leaves_ret; [apply F_div_assign_leaves; auto; intros ? [= <-]; auto|].
    cbn [rd]. rewrite <- Va, <- Vb. apply ratio_div; auto.
  - pose proof (top_nonzero x a Va N). eapply leaves_ret; [apply F_div_assign_leaves; auto; discriminate|]. cbn [rd]. rewrite <- Va. apply ratio_div; auto.
Qed.
Lemma Frac_eq_exact x y a b : R_frac x a -> R_frac y b -> ret never (eqb Frac_ops x y) (fun r => r = true <-> a == b).
Proof.
  intros [Rx Va] [Ry Vb]. destruct (PropsFrac.C34_comparisons x y Rx Ry) as (e & l & m & E & _ & _ & _ & _ & _ & H & _).
  left. exists e. split; auto. rewrite <- Va, <- Vb. exact H.
Qed.
End FracExact.

(** *** Exact types *)
Section Exact.
Context {T : Type} (z : Z -> T) (fr : option T) (a s m d : T -> T -> T) (n : T -> T) (e : T -> T -> bool).
Local Notation E := (exact_ops z fr a s m d n e).
Lemma exact_add : binary_exact never eq (add E) a.
Proof. intros x y ? ? <- <-. left. eexists. split; reflexivity. Qed.
Lemma exact_sub : binary_exact never eq (sub E) s.
Proof. intros x y ? ? <- <-. left. eexists. split; reflexivity. Qed.
Lemma exact_mul : binary_exact never eq (mul E) m.
Proof. intros x y ? ? <- <-. left. eexists. split; reflexivity. Qed.
Lemma exact_addA : assign_exact never eq eq eq (addA E) a.
Proof. split; [intros x y ? ? <- <-|intros x ? <- _]; left; eexists; split; reflexivity. Qed.
Lemma exact_subA : assign_exact never eq eq eq (subA E) s.
Proof. split; [intros x y ? ? <- <-|intros x ? <- _]; left; eexists; split; reflexivity. Qed.
Lemma exact_mulA : assign_exact never eq eq eq (mulA E) m.
Proof. split; [intros x y ? ? <- <-|intros x ? <- _]; left; eexists; split; reflexivity. Qed.
Lemma exact_divA : assign_exact never eq (nonzero eq (fun y => e y (z 0%Z) = true)) eq (divA E) d.
Proof.
  split; [intros x y ? ? <- [<- N]|intros x ? <- [_ N]]; left; cbn; destruct (e _ _); try (contradiction N; reflexivity); eexists; split; reflexivity.
Qed.
End Exact.
