(** The element type Frac against exact rational arithmetic: nothing is aborted as
    long as all numbers are quotients of small integers. *)
From Coq Require Import QArith Lia.
From Verif Require PropsFrac.
From Verif Require Import Base IntModel IntSpec IntBasics FracModel FracSpec FracProofs ElemModel ElemSpec ElemProofs ElemInst SimSpec SimProofs SimInst.
Local Open Scope Z_scope.

(** Frac has no unary minus and no conversion from int (src/Frac.hpp:20-24), so the
    functions that need them do not exist for it; here is one that makes the record
    complete, which none of the functions considered uses *)
Definition Frac_neg_ops : ops Frac := {|
  of_int := of_int Frac_ops; fresh := fresh Frac_ops; add := add Frac_ops; sub := sub Frac_ops; mul := mul Frac_ops; div := div Frac_ops;
  neg := fun x => sub Frac_ops (of_int Frac_ops 0) x; eqb := eqb Frac_ops; addA := addA Frac_ops; subA := subA Frac_ops; mulA := mulA Frac_ops; divA := divA Frac_ops |}.

Lemma reduced_small f q : reduced f -> (Fval f == q)%Q -> small_ratio q = true -> is_frac q f.
Proof.
  intros R V H. split; [exact R|]. split; [exact V|]. unfold small_ratio in H. apply andb_prop in H as [H1 H2]. apply Z.leb_le in H1, H2.
  destruct R as (_ & _ & P & G). unfold Fval, ratio in V. destruct q as [n d]. cbn [Qnum Qden] in *.
  assert (E : val (top f) * Zpos d = n * val (bot f)).
  { destruct (val (bot f)) as [|b|b]; try lia. unfold Qeq, Qdiv, Qmult, Qinv, inject_Z in V. cbn in V. lia. }
  assert (D1 : (val (bot f) | Zpos d)).
  { apply Znumtheory.Gauss with (b := val (top f)); [exists n; lia|]. apply Znumtheory.Zgcd_1_rel_prime. rewrite Z.gcd_comm. exact G. }
  assert (D2 : (val (top f) | n)).
  { apply Znumtheory.Gauss with (b := val (bot f)); [exists (Zpos d); lia|]. apply Znumtheory.Zgcd_1_rel_prime. exact G. }
  destruct (Z.eq_dec n 0) as [->|N].
  - assert (val (top f) = 0) by nia. apply Z.divide_pos_le in D1; lia.
  - apply Z.divide_pos_le in D1; [|lia]. split; [|lia].
    apply Z.divide_abs_l, Z.divide_abs_r in D2. apply Z.divide_pos_le in D2; lia.
Qed.
Lemma makes_small ok m t b q a : (forall q, ok q = true -> small_ratio q = true) -> makes m t b -> b <> 0 -> Z.abs t < 10 ^ 18 -> Z.abs b < 10 ^ 18 ->
  (ratio t b == q)%Q -> watch ok q = Ok a -> ret never m (is_frac a).
Proof.
  intros Hok M N Ht Hb Q W. apply watch_ok in W as [W1 W2]. destruct M as [[H _]|[(_ & H & _)|(_ & _ & f & -> & Rf & Vf)]]; [contradiction|destruct H; apply norm_safe_small; auto|].
  left. exists f. split; [reflexivity|]. apply reduced_small; auto. rewrite Vf, Q, W1. reflexivity.
Qed.
Lemma leaves_small ok p t b q a : (forall q, ok q = true -> small_ratio q = true) -> leaves p t b -> Z.abs t < 10 ^ 18 -> Z.abs b < 10 ^ 18 ->
  (ratio t b == q)%Q -> watch ok q = Ok a -> ret never (result p) (is_frac a).
Proof.
  intros Hok M Ht Hb Q W. apply watch_ok in W as [W1 W2]. destruct M as [(_ & f & -> & Rf & Vf)|[H _]]; [|destruct H; apply norm_safe_small; auto].
  left. exists f. split; [reflexivity|]. apply reduced_small; auto. rewrite Vf, Q, W1. reflexivity.
Qed.
Lemma sum_small t b t' b' : Z.abs t <= 700000000 -> 0 < b <= 700000000 -> Z.abs t' <= 700000000 -> 0 < b' <= 700000000 ->
  Z.abs (t * b' + t' * b) < 10 ^ 18 /\ Z.abs (t * b' - t' * b) < 10 ^ 18 /\ Z.abs (b * b') < 10 ^ 18 /\
  Z.abs (t * t') < 10 ^ 18 /\ Z.abs (t * b') < 10 ^ 18 /\ Z.abs (b * t') < 10 ^ 18.
Proof. intros. change (10 ^ 18) with 1000000000000000000. splits; nia. Qed.

Section Small.
Variable ok : Q -> bool.
Hypothesis Hok : forall q, ok q = true -> small_ratio q = true.
Local Notation W := (watched ok).
Lemma frac_parts q f : is_frac q f -> reduced f /\ parts f /\ (Fval f == q)%Q /\ Z.abs (val (top f)) <= 700000000 /\ 0 < val (bot f) <= 700000000.
Proof. intros (R & V & T & B). pose proof R as (_ & _ & P & _). splits; auto; first [apply parts_reduced, R|lia]. Qed.
Ltac setup := match goal with
  | Hx : is_frac _ ?x, Hy : is_frac _ ?y |- _ =>
    apply frac_parts in Hx as (? & ? & Vx & ? & ?); apply frac_parts in Hy as (? & ? & Vy & ? & ?);
    destruct (sum_small (val (top x)) (val (bot x)) (val (top y)) (val (bot y))) as (? & ? & ? & ? & ? & ?); auto
  end.
Lemma frac_add : forall x y x' y', is_frac x x' -> is_frac y y' -> sim never is_frac (add W x y) (add Frac_ops x' y').
Proof.
  intros x y x' y' Hx Hy a E. setup. eapply (makes_small ok); [exact Hok|apply F_add_makes; auto|nia|auto|auto| |exact E].
  rewrite <- Vy, <- Vx. apply ratio_add; lia.
Qed.
Lemma frac_sub : forall x y x' y', is_frac x x' -> is_frac y y' -> sim never is_frac (sub W x y) (sub Frac_ops x' y').
Proof.
  intros x y x' y' Hx Hy a E. setup. eapply (makes_small ok); [exact Hok|apply F_sub_makes; auto|nia|auto|auto| |exact E].
  rewrite <- Vy, <- Vx. apply ratio_sub; lia.
Qed.
Lemma frac_mul : forall x y x' y', is_frac x x' -> is_frac y y' -> sim never is_frac (mul W x y) (mul Frac_ops x' y').
Proof.
  intros x y x' y' Hx Hy a E. setup. eapply (makes_small ok); [exact Hok|apply F_mul_makes; auto|nia|auto|auto| |exact E].
  rewrite <- Vy, <- Vx. apply ratio_mul; lia.
Qed.
Lemma frac_div : forall x y x' y', is_frac x x' -> is_frac y y' -> sim never is_frac (div W x y) (div Frac_ops x' y').
Proof.
  intros x y x' y' Hx Hy a E. setup. change (watched_div ok x y = Ok a) in E. unfold watched_div in E. destruct (Qeq_bool y 0) eqn:Ey; [discriminate|]. apply Qeq_bool_neq in Ey.
  pose proof (top_nonzero y' y Vy Ey). eapply (makes_small ok); [exact Hok|apply F_div_makes; auto|nia|auto|auto| |exact E].
  rewrite <- Vy, <- Vx. apply ratio_div; lia.
Qed.
Lemma frac_addA : forall x y x' y', is_frac x x' -> option_rel is_frac y y' -> sim never is_frac (addA W x y) (addA Frac_ops x' y').
Proof.
  intros x y x' y' Hx Hy a E. pose proof (rd_sim _ _ _ _ _ Hx Hy) as Hr. assert (Hy' : forall z, y' = Some z -> reduced z).
  { intros z ->. destruct y; [apply Hy|contradiction]. } 
  setup. eapply (leaves_small ok); [exact Hok|apply F_add_assign_leaves; auto|auto|auto| |exact E].
  rewrite <- Vy, <- Vx. apply ratio_add; lia.
Qed.
Lemma frac_subA : forall x y x' y', is_frac x x' -> option_rel is_frac y y' -> sim never is_frac (subA W x y) (subA Frac_ops x' y').
Proof.
  intros x y x' y' Hx Hy a E. pose proof (rd_sim _ _ _ _ _ Hx Hy) as Hr. assert (Hy' : forall z, y' = Some z -> reduced z).
  { intros z ->. destruct y; [apply Hy|contradiction]. } 
  setup. eapply (leaves_small ok); [exact Hok|apply F_sub_assign_leaves; auto|auto|auto| |exact E].
  rewrite <- Vy, <- Vx. apply ratio_sub; lia.
Qed.
Lemma frac_mulA : forall x y x' y', is_frac x x' -> option_rel is_frac y y' -> sim never is_frac (mulA W x y) (mulA Frac_ops x' y').
Proof.
  intros x y x' y' Hx Hy a E. pose proof (rd_sim _ _ _ _ _ Hx Hy) as Hr. assert (Hy' : forall z, y' = Some z -> reduced z).
  { intros z ->. destruct y; [apply Hy|contradiction]. } 
  setup. eapply (leaves_small ok); [exact Hok|apply F_mul_assign_leaves; auto|auto|auto| |exact E].
  rewrite <- Vy, <- Vx. apply ratio_mul; lia.
Qed.
Lemma frac_divA : forall x y x' y', is_frac x x' -> option_rel is_frac y y' -> sim never is_frac (divA W x y) (divA Frac_ops x' y').
Proof.
  intros x y x' y' Hx Hy a E. pose proof (rd_sim _ _ _ _ _ Hx Hy) as Hr. assert (Hy' : forall z, y' = Some z -> reduced z).
  { intros z ->. destruct y; [apply Hy|contradiction]. } 
  setup. change (watched_div ok x (rd x y) = Ok a) in E. unfold watched_div in E. destruct (Qeq_bool (rd x y) 0) eqn:Ey; [discriminate|]. apply Qeq_bool_neq in Ey.
  pose proof (top_nonzero _ _ Vy Ey). eapply (leaves_small ok); [exact Hok|apply F_div_assign_leaves; auto|auto|auto| |exact E].
  rewrite <- Vy, <- Vx. apply ratio_div; lia.
Qed.
Lemma frac_eqb : forall x y x' y', is_frac x x' -> is_frac y y' -> sim never eq (eqb W x y) (eqb Frac_ops x' y').
Proof.
  intros x y x' y' (Rx & Vx & _) (Ry & Vy & _) a [= <-]. destruct (Frac_eq_exact x' y' x y (conj Rx Vx) (conj Ry Vy)) as [(r & -> & H)|(? & [] & _)].
  left. exists r. split; [reflexivity|]. destruct r; [apply Qeq_bool_iff; tauto|]. destruct (Qeq_bool x y) eqn:E; [|reflexivity].
  apply Qeq_bool_iff in E. symmetry. tauto.
Qed.
Lemma frac_ring : ring_sim never is_frac W Frac_neg_ops.
Proof.
  assert (Hc : forall k, In k [0; 1; -1] -> is_frac (inject_Z k) (frac_const k)).
  { intros k Hk. assert (K : -1 <= k <= 1) by (cbn in Hk; lia). destruct (Frac_const_exact k ltac:(lia)) as [R V]. apply reduced_small; auto.
    unfold small_ratio. cbn [Qnum Qden inject_Z]. apply andb_true_intro. split; apply Z.leb_le; lia. }
  split; [exact Hc|exact Logic.I|exact frac_add|exact frac_sub|exact frac_mul| |exact frac_eqb|exact frac_addA|exact frac_subA].
  intros x x' Hx a E. apply (frac_sub (inject_Z 0) x); auto; [apply Hc; cbn; auto|]. revert E. cbn [neg sub watched]. unfold watch.
  replace (Qred (inject_Z 0 - x)%Q) with (Qred (- x)%Q); auto. apply Qred_complete. change (inject_Z 0) with 0%Q. ring.
Qed.
Lemma frac_field : div_sim never is_frac W Frac_neg_ops.
Proof. split; [exact frac_div|exact frac_divA]. Qed.
End Small.
