(** rref() and inverse() of Mat<double> (src/Mat.hpp:405-473): backward error, and the exact
    shape of the result. *)
From Coq Require Import Reals Qreals QArith Qabs Lra Lia SpecFloat.
From Flocq Require Import Core BinarySingleNaN Relative Plus_error.
From Verif Require Import Base IntModel IntBasics FracModel FracSpec CommonModel CommonSpec CommonProofs ElemModel ElemSpec ElemProofs VecModel VecProofs
  MatModel MatSpec MatProofs MatElim DoubleModel DoubleSpec DoubleProofs DoubleVec DoubleRange DoubleMat DoubleElim DoubleCof LUSpec LUProofs JordanSpec.
#[local] Existing Instances Hprec Hmax Vexp.
Local Open Scope R_scope.
Local Notation u := unit_roundoff.
Local Notation D := double_ops.

(** *** One operation *)
Lemma rnd_back r : Rabs (rnd r - r) <= u * Rabs (rnd r) + half_least.
Proof.
  pose proof u_pos as U. pose proof half_least_pos as HL. pose proof (Rabs_pos (rnd r)) as A.
  eapply Rle_trans; [apply (error_le_half_ulp_round radix2 (FLT_exp (-1074) 53) (fun z => negb (Z.even z)) r)|]. change (round radix2 (FLT_exp (-1074) 53) (Znearest (fun z => negb (Z.even z))) r) with (rnd r).
  destruct (Rle_or_lt (bpow radix2 (-1074 + 53 - 1)) (Rabs (rnd r))) as [L|L].
  - pose proof (ulp_FLT_le radix2 (-1074) 53 (rnd r) L) as H. rewrite <- u_val at 1. unfold u_ro. change (- (53) + 1)%Z with (1 - 53)%Z. pose proof (bpow_gt_0 radix2 (1 - 53)). nra.
  - rewrite (ulp_FLT_small radix2 (-1074) 53).
    + rewrite half_least_val. nra.
    + eapply Rlt_le_trans; [exact L|]. apply bpow_le. lia.
Qed.
Lemma div_error (x p : bin) : is_finite p = true -> B2R p <> 0 -> is_finite (Bdiv mode_NE x p) = true ->
  is_finite x = true /\ Rabs (B2R x - B2R p * B2R (Bdiv mode_NE x p)) <= Rabs (B2R p) * (u * Rabs (B2R (Bdiv mode_NE x p)) + half_least).
Proof.
  intros Fp Np F. destruct (finite_div _ _ F Fp Np) as (Fx & E). split; [exact Fx|]. pose proof (rnd_back (B2R x / B2R p)) as B. rewrite <- E in B. set (y := B2R (Bdiv mode_NE x p)) in *.
  replace (B2R x - B2R p * y) with (B2R p * - (y - B2R x / B2R p)) by (field; exact Np). rewrite Rabs_mult, Rabs_Ropp. apply Rmult_le_compat_l; [apply Rabs_pos|exact B].
Qed.
Lemma clear_error (x v w : bin) : let y := Bminus mode_NE x (Bmult mode_NE v w) in is_finite y = true ->
  is_finite x = true /\ is_finite v = true /\ is_finite w = true /\
  Rabs (B2R x - (B2R v * B2R w + B2R y)) <= Rabs (B2R v) * (u * Rabs (B2R w)) + (u * Rabs (B2R y) + half_least).
Proof.
  intros y Fy. destruct (finite_minus _ _ Fy) as (Fx & Fq & Ey). destruct (finite_mult _ _ Fq) as (Fv & Fw & Em).
  split; [exact Fx|]. split; [exact Fv|]. split; [exact Fw|].
  pose proof (rnd_minus_back x (Bmult mode_NE v w)) as B. rewrite <- Ey in B. fold y in B. set (Y := B2R y) in *. set (X := B2R x) in *.
  destruct (rnd_any (B2R v * B2R w)) as (e & h & E & H & R1). rewrite <- Em in R1. set (m := B2R (Bmult mode_NE v w)) in *.
  replace (X - (B2R v * B2R w + Y)) with (- (Y - (X - m)) + (B2R v * B2R w * e + h)) by (rewrite R1; ring). eapply Rle_trans; [apply Rabs_triang|]. rewrite Rabs_Ropp.
  assert (A : Rabs (B2R v * B2R w * e + h) <= Rabs (B2R v) * (u * Rabs (B2R w)) + half_least).
  { eapply Rle_trans; [apply Rabs_triang|]. apply Rplus_le_compat; [|exact H]. rewrite !Rabs_mult. pose proof (Rabs_pos (B2R v)). pose proof (Rabs_pos (B2R w)).
    apply Rle_trans with (Rabs (B2R v) * Rabs (B2R w) * u); [|lra]. apply Rmult_le_compat_l; [nra|exact E]. }
  lra.
Qed.

(** *** Sums *)
Lemma Rsum_plus n f g : Rsum n (fun i => f i + g i) = Rsum n f + Rsum n g.
Proof. induction n as [|n IH]; cbn [Rsum]; [lra|]. rewrite IH. lra. Qed.
Lemma Rsum_scale n a f : Rsum n (fun i => a * f i) = a * Rsum n f.
Proof. induction n as [|n IH]; cbn [Rsum]; [lra|]. rewrite IH. lra. Qed.
Lemma Rsum_exchange n m (f : nat -> nat -> R) : Rsum n (fun i => Rsum m (f i)) = Rsum m (fun j => Rsum n (fun i => f i j)).
Proof. induction n as [|n IH]; cbn [Rsum]; [symmetry; apply Rsum_zero; auto|]. rewrite IH, <- Rsum_plus. reflexivity. Qed.
Lemma Rsum_one n r f : (r < n)%nat -> (forall k, (k < n)%nat -> k <> r -> f k = 0) -> Rsum n f = f r.
Proof.
  induction n as [|n IH]; intros Hr H; [lia|]. cbn [Rsum]. destruct (Nat.eq_dec r n) as [->|N].
  - rewrite Rsum_zero by (intros; apply H; lia). lra.
  - rewrite IH by (try lia; intros; apply H; lia). rewrite (H n) by lia. lra.
Qed.
Lemma Rsum_two n r a f : (r < n)%nat -> (a < n)%nat -> a <> r -> (forall k, (k < n)%nat -> k <> r -> k <> a -> f k = 0) -> Rsum n f = f r + f a.
Proof.
  induction n as [|n IH]; intros Hr Ha N H; [lia|]. cbn [Rsum]. destruct (Nat.eq_dec r n) as [->|Nr]; [|destruct (Nat.eq_dec a n) as [->|Na]].
  - rewrite (Rsum_one n a) by (try lia; intros; apply H; lia). lra.
  - rewrite (Rsum_one n r) by (try lia; intros; apply H; lia). lra.
  - rewrite IH by (try lia; intros; apply H; lia). rewrite (H n) by lia. lra.
Qed.
Lemma Q2R_abs q : Q2R (Qabs q) = Rabs (Q2R q).
Proof.
  apply Qabs_case; intros H; apply Qle_Rle in H; change (Q2R 0) with (0 * / 1) in H; rewrite Rmult_0_l in H.
  - rewrite Rabs_pos_eq; auto.
  - rewrite Q2R_opp, Rabs_left1; auto.
Qed.
Lemma Q2R_mat n a b i j : Q2R (Qmat n a b i j) = Rsum n (fun k => Q2R (a i k) * Q2R (b k j)).
Proof. unfold Qmat. rewrite Q2R_sum. apply Rsum_ext. intros. apply Q2R_mult. Qed.
Lemma Q2R_0 : Q2R 0 = 0.
Proof. unfold Q2R. cbn. lra. Qed.
Lemma Q2R_1 : Q2R 1 = 1.
Proof. unfold Q2R. cbn. lra. Qed.
(** a step applied to a column *)
Lemma exchanged_trans x r i : exchanged x r i = trans x r i.
Proof. reflexivity. Qed.
Lemma step_sum (F : Q -> R) n s i f : F 0%Q = 0 -> F 1%Q = 1 -> (row s < n)%nat -> (exchanged (other s) (row s) i < n)%nat -> let a := exchanged (other s) (row s) i in
  Rsum n (fun k => F (step_matrix s i k) * f k) = if (a =? row s)%nat then F (mult s a) * f (row s) else F (mult s a) * f (row s) + f a.
Proof.
  intros F0 F1 Hr Ha a. unfold step_matrix. fold a. destruct (Nat.eqb_spec a (row s)) as [E|N].
  - rewrite (Rsum_one n (row s)); [rewrite Nat.eqb_refl; reflexivity|exact Hr|]. intros k Hk Nk. destruct (Nat.eqb_spec k (row s)); [lia|]. destruct (Nat.eqb_spec k a); [lia|]. rewrite F0. ring.
  - rewrite (Rsum_two n (row s) a); [|exact Hr|exact Ha|exact N|].
    + rewrite Nat.eqb_refl. destruct (Nat.eqb_spec a (row s)); [lia|]. rewrite Nat.eqb_refl, F1. ring.
    + intros k Hk Nk Na. destruct (Nat.eqb_spec k (row s)); [lia|]. destruct (Nat.eqb_spec k a); [lia|]. rewrite F0. ring.
Qed.

(** *** One step and the following ones *)
Definition nears (n c : nat) (l : list step) (g h : nat -> nat -> R) : Prop := forall i j, (i < n)%nat -> (j < c)%nat ->
  Rabs (g i j - Rsum n (fun k => Q2R (product n l i k) * h k j)) <=
    ((1 + u) ^ length l - 1) * Rsum n (fun k => Q2R (sizes n l i k) * Rabs (h k j)) + (1 + u) ^ length l * half_least * Rsum n (fun k => Q2R (stages n l i k)).
Lemma nears_nil n c g h : (forall i j, (i < n)%nat -> (j < c)%nat -> g i j = h i j) -> nears n c [] g h.
Proof.
  intros E i j Hi Hj. cbn [product sizes stages length pow]. unfold identity. rewrite (Rsum_one n i); [|exact Hi|].
  - rewrite Nat.eqb_refl, Q2R_1, E by auto. rewrite Rminus_diag_eq, Rabs_R0 by ring. rewrite (Rsum_zero n (fun _ => Q2R 0)) by (intros; apply Q2R_0). lra.
  - intros k Hk N. destruct (Nat.eqb_spec i k); [lia|]. rewrite Q2R_0. ring.
Qed.
Lemma sizes_nonneg n l : forall i j, 0 <= Q2R (sizes n l i j).
Proof.
  induction l as [|s l IH]; intros i j; cbn [sizes].
  - unfold identity. destruct (i =? j)%nat; [rewrite Q2R_1; lra|rewrite Q2R_0; lra].
  - rewrite Q2R_mat. apply Rsum_nonneg. intros k _. unfold abs. rewrite Q2R_abs. apply Rmult_le_pos; [apply Rabs_pos|apply IH].
Qed.
Lemma stages_nonneg n l : forall i j, 0 <= Q2R (stages n l i j).
Proof.
  induction l as [|s l IH]; intros i j; cbn [stages]; [rewrite Q2R_0; lra|]. rewrite Q2R_plus, Q2R_abs, Q2R_mat. apply Rplus_le_le_0_compat; [apply Rabs_pos|]. apply Rsum_nonneg. intros k _.
  unfold abs. rewrite Q2R_abs. apply Rmult_le_pos; [apply Rabs_pos|apply IH].
Qed.
Lemma sizes_product n l : forall i j, Rabs (Q2R (product n l i j)) <= Q2R (sizes n l i j).
Proof.
  induction l as [|s l IH]; intros i j; cbn [sizes product].
  - unfold identity. destruct (i =? j)%nat; rewrite ?Q2R_1, ?Q2R_0, ?Rabs_R1, ?Rabs_R0; lra.
  - rewrite !Q2R_mat. eapply Rle_trans; [apply Rsum_abs|]. apply Rsum_le. intros k _. unfold abs. rewrite Q2R_abs, Rabs_mult. apply Rmult_le_compat_l; [apply Rabs_pos|apply IH].
Qed.
Lemma nears_cons n c s l g g' h :
  (forall i j, (i < n)%nat -> (j < c)%nat -> Rabs (g i j - Rsum n (fun k => Q2R (step_matrix s i k) * g' k j)) <= Rsum n (fun k => Rabs (Q2R (step_matrix s i k)) * (u * Rabs (g' k j) + half_least))) ->
  nears n c l g' h -> nears n c (s :: l) g h.
Proof.
  intros St Near i j Hi Hj. pose proof u_pos as U. pose proof half_least_pos as HL. specialize (St i j Hi Hj).
  set (T k := Q2R (step_matrix s i k)) in *. set (P := (1 + u) ^ length l) in *. assert (P1 : 1 <= P) by apply pow_ge_1.
  set (W k := Rsum n (fun m => Q2R (sizes n l k m) * Rabs (h m j))). set (V k := Rsum n (fun m => Q2R (stages n l k m))).
  assert (Wn : forall k, 0 <= W k) by (intros k; apply Rsum_nonneg; intros; apply Rmult_le_pos; [apply sizes_nonneg|apply Rabs_pos]).
  assert (Vn : forall k, 0 <= V k) by (intros k; apply Rsum_nonneg; intros; apply stages_nonneg).
  assert (G' : forall k, (k < n)%nat -> Rabs (g' k j) <= P * W k + P * half_least * V k).
  { intros k Hk. specialize (Near k j Hk Hj). fold P in Near. fold (W k) in Near. fold (V k) in Near. set (B := Rsum n _) in Near.
    assert (HB : Rabs B <= W k).
    { eapply Rle_trans; [apply Rsum_abs|]. apply Rsum_le. intros m _. rewrite Rabs_mult. apply Rmult_le_compat_r; [apply Rabs_pos|apply sizes_product]. }
    replace (g' k j) with (B + (g' k j - B)) by ring. eapply Rle_trans; [apply Rabs_triang|]. lra. }
  assert (Ep : Rsum n (fun k => Q2R (product n (s :: l) i k) * h k j) = Rsum n (fun k => T k * Rsum n (fun m => Q2R (product n l k m) * h m j))).
  { cbn [product]. rewrite (Rsum_ext n _ (fun m => Rsum n (fun k => T k * (Q2R (product n l k m) * h m j)))).
    - rewrite Rsum_exchange. apply Rsum_ext. intros k _. apply Rsum_scale.
    - intros m _. rewrite Q2R_mat, Rmult_comm, <- Rsum_scale. apply Rsum_ext. intros k _. unfold T. ring. }
  assert (Ew : Rsum n (fun k => Q2R (sizes n (s :: l) i k) * Rabs (h k j)) = Rsum n (fun k => Rabs (T k) * W k)).
  { cbn [sizes]. rewrite (Rsum_ext n _ (fun m => Rsum n (fun k => Rabs (T k) * (Q2R (sizes n l k m) * Rabs (h m j))))).
    - rewrite Rsum_exchange. apply Rsum_ext. intros k _. apply Rsum_scale.
    - intros m _. rewrite Q2R_mat, Rmult_comm, <- Rsum_scale. apply Rsum_ext. intros k _. unfold T, abs. rewrite Q2R_abs. ring. }
  assert (Ev : Rsum n (fun k => Q2R (stages n (s :: l) i k)) = Rsum n (fun k => Rabs (T k) * (1 + V k))).
  { cbn [stages]. rewrite (Rsum_ext n _ (fun m => Rabs (T m) + Rsum n (fun k => Rabs (T k) * Q2R (stages n l k m)))).
    - rewrite Rsum_plus, Rsum_exchange, <- Rsum_plus. apply Rsum_ext. intros k _. rewrite Rsum_scale. unfold V. ring.
    - intros m _. rewrite Q2R_plus, Q2R_abs, Q2R_mat. unfold T. f_equal. apply Rsum_ext. intros k _. unfold abs. rewrite Q2R_abs. reflexivity. }
  rewrite Ep, Ew, Ev. change (length (s :: l)) with (S (length l)). change ((1 + u) ^ S (length l)) with ((1 + u) * P).
  set (B k := Rsum n (fun m => Q2R (product n l k m) * h m j)).
  change (Rsum n (fun k => T k * Rsum n (fun m => Q2R (product n l k m) * h m j))) with (Rsum n (fun k => T k * B k)).
  replace (g i j - Rsum n (fun k => T k * B k)) with ((g i j - Rsum n (fun k => T k * g' k j)) + Rsum n (fun k => T k * (g' k j - B k))).
  2: { rewrite (Rsum_ext n (fun k => T k * (g' k j - B k)) (fun k => T k * g' k j + -1 * (T k * B k))) by (intros; ring). rewrite Rsum_plus, Rsum_scale. ring. }
  eapply Rle_trans; [apply Rabs_triang|]. eapply Rle_trans; [apply Rplus_le_compat; [exact St|apply Rsum_abs]|]. rewrite <- Rsum_plus, <- !Rsum_scale, <- Rsum_plus. apply Rsum_le. intros k Hk.
  rewrite Rabs_mult. pose proof (Rabs_pos (T k)) as Tn. specialize (G' k Hk). pose proof (Near k j Hk Hj) as N. fold P in N. fold (W k) in N. fold (V k) in N. fold (B k) in N.
  rewrite <- Rmult_plus_distr_l.
  apply Rle_trans with (Rabs (T k) * (((1 + u) * P - 1) * W k + (1 + u) * P * half_least * (1 + V k))); [|lra]. apply Rmult_le_compat_l; [exact Tn|].
  specialize (Wn k). specialize (Vn k). assert (u * Rabs (g' k j) <= u * (P * W k + P * half_least * V k)) by (apply Rmult_le_compat_l; lra).
  assert (1 <= (1 + u) * P) by nra. assert (half_least <= (1 + u) * P * half_least) by (rewrite <- (Rmult_1_l half_least) at 1; apply Rmult_le_compat_r; lra). lra.
Qed.

(** *** The shape of the matrix when rows below r and columns before p are done *)
Definition shape (n r p : nat) (piv : nat -> nat) (v : nat -> nat -> R) : Prop :=
  (forall a, (a < r)%nat -> (piv a < p)%nat /\ v a (piv a) = 1 /\ (forall j, (j < piv a)%nat -> v a j = 0) /\ (forall i, (i < n)%nat -> i <> a -> v i (piv a) = 0)) /\
  (forall a b, (a < b < r)%nat -> (piv a < piv b)%nat) /\
  (forall i j, (r <= i < n)%nat -> (j < p)%nat -> v i j = 0).
Lemma trans_lt x r n i : (x < n)%nat -> (r < n)%nat -> (i < n)%nat -> (trans x r i < n)%nat.
Proof. intros. unfold trans. destruct (Nat.eqb_spec i x); [lia|]. destruct (Nat.eqb_spec i r); lia. Qed.
Lemma trans_back x r i : trans x r (trans x r i) = i.
Proof.
  unfold trans. destruct (Nat.eqb_spec i x) as [->|].
  - destruct (Nat.eqb_spec r x); [lia|]. rewrite Nat.eqb_refl. reflexivity.
  - destruct (Nat.eqb_spec i r) as [->|]; [rewrite Nat.eqb_refl; reflexivity|]. destruct (Nat.eqb_spec i x); [lia|]. destruct (Nat.eqb_spec i r); [lia|reflexivity].
Qed.
Lemma trans_above x r i : (r <= x)%nat -> (i < r)%nat -> trans x r i = i.
Proof. intros. unfold trans. destruct (Nat.eqb_spec i x); [lia|]. destruct (Nat.eqb_spec i r); [lia|reflexivity]. Qed.
Lemma trans_below x r i : (r <= x)%nat -> (r <= i)%nat -> (r <= trans x r i)%nat.
Proof. intros. unfold trans. destruct (Nat.eqb_spec i x); [lia|]. destruct (Nat.eqb_spec i r); lia. Qed.
Lemma shape_swap n r p piv v x : (r <= x < n)%nat -> shape n r p piv v -> shape n r p piv (fun i j => v (trans x r i) j).
Proof.
  intros Hx (Pv & Inc & Low). split; [|split; [exact Inc|]].
  - intros a Ha. destruct (Pv a Ha) as (L & One & Left & Col). rewrite trans_above by lia. split; [exact L|]. split; [exact One|]. split; [exact Left|]. intros i Hi N. apply Col; [apply trans_lt; lia|].
    intros E. apply N. rewrite <- (trans_back x r i), E, trans_above; lia.
  - intros i j Hi Hj. apply Low; [|exact Hj]. split; [apply trans_below; lia|apply trans_lt; lia].
Qed.
Lemma rnd_B2R (b : bin) : rnd (B2R b) = B2R b.
Proof. apply rnd_format, generic_format_B2R. Qed.
Lemma rnd_1 : rnd 1 = 1.
Proof. exact (R_double_rnd _ _ R_double_1). Qed.

(** *** One round of the loop: row r is divided by the pivot, the others are cleared *)
Section Round.
Context (n c r q : nat) (g : nat -> nat -> bin) (Hr : (r < n)%nat) (Hq : (q < c)%nat) (Nz : isz (g r q) = false).
Definition scaled i j : bin := if (i =? r)%nat then Bdiv mode_NE (g i j) (g r q) else g i j.
Definition cleared i j : bin := if (i =? r)%nat then scaled i j else Bminus mode_NE (scaled i j) (Bmult mode_NE (scaled i q) (scaled r j)).
Hypothesis Fin : forall i j, (i < n)%nat -> (j < c)%nat -> is_finite (cleared i j) = true.
Lemma scaled_row j : scaled r j = Bdiv mode_NE (g r j) (g r q).
Proof. unfold scaled. rewrite Nat.eqb_refl. reflexivity. Qed.
Lemma cleared_row j : cleared r j = Bdiv mode_NE (g r j) (g r q).
Proof. unfold cleared. rewrite Nat.eqb_refl. apply scaled_row. Qed.
Lemma cleared_other i j : i <> r -> cleared i j = Bminus mode_NE (g i j) (Bmult mode_NE (g i q) (Bdiv mode_NE (g r j) (g r q))).
Proof. intros N. unfold cleared. rewrite scaled_row. unfold scaled. destruct (Nat.eqb_spec i r); [lia|reflexivity]. Qed.
Lemma pivot_good : is_finite (g r q) = true /\ B2R (g r q) <> 0.
Proof.
  pose proof (Fin r q Hr Hq) as F. rewrite cleared_row in F. destruct (g r q) as [s|s| |s m e B] eqn:Eg.
  - exfalso. unfold isz in Nz. destruct s; discriminate Nz.
  - exfalso. destruct s; discriminate F.
  - exfalso. discriminate F.
  - split; [reflexivity|]. cbn [B2R]. unfold F2R. cbn [Fnum Fexp]. apply Rmult_integral_contrapositive_currified; [|pose proof (bpow_gt_0 radix2 e); lra]. destruct s; apply IZR_neq; discriminate.
Qed.
Lemma before_finite i j : (i < n)%nat -> (j < c)%nat -> is_finite (g i j) = true.
Proof.
  intros Hi Hj. destruct pivot_good as (Fp & Np). pose proof (Fin i j Hi Hj) as F. destruct (Nat.eq_dec i r) as [->|N].
  - rewrite cleared_row in F. apply (finite_div _ _ F Fp Np).
  - rewrite cleared_other in F by exact N. apply (finite_minus _ _ F).
Qed.
Lemma row_value j : (j < c)%nat -> B2R (cleared r j) = rnd (B2R (g r j) / B2R (g r q)).
Proof.
  intros Hj. destruct pivot_good as (Fp & Np). pose proof (Fin r j Hr Hj) as F. rewrite cleared_row in *. apply (finite_div _ _ F Fp Np).
Qed.
Lemma row_zero j : (j < c)%nat -> B2R (g r j) = 0 -> B2R (cleared r j) = 0.
Proof. intros Hj E. rewrite row_value, E by exact Hj. unfold Rdiv. rewrite Rmult_0_l. apply rnd_zero. Qed.
Lemma row_pivot : B2R (cleared r q) = 1.
Proof. rewrite row_value by exact Hq. destruct pivot_good as (_ & Np). unfold Rdiv. rewrite Rinv_r by exact Np. apply rnd_1. Qed.
Lemma other_value i j : (i < n)%nat -> (j < c)%nat -> i <> r -> B2R (cleared i j) = rnd (B2R (g i j) - rnd (B2R (g i q) * B2R (cleared r j))).
Proof.
  intros Hi Hj N. pose proof (Fin i j Hi Hj) as F. rewrite cleared_row. rewrite cleared_other in * by exact N.
  destruct (finite_minus _ _ F) as (_ & Fm & ->). destruct (finite_mult _ _ Fm) as (_ & _ & ->). reflexivity.
Qed.
Lemma other_same i j : (i < n)%nat -> (j < c)%nat -> i <> r -> B2R (g r j) = 0 -> B2R (cleared i j) = B2R (g i j).
Proof. intros Hi Hj N E. rewrite other_value, row_zero, Rmult_0_r, rnd_zero, Rminus_0_r by auto. apply rnd_B2R. Qed.
Lemma other_pivot i : (i < n)%nat -> i <> r -> B2R (cleared i q) = 0.
Proof. intros Hi N. rewrite other_value, row_pivot, Rmult_1_r, rnd_B2R, Rminus_diag_eq by auto. apply rnd_zero. Qed.
Lemma shape_round p piv : (p <= q)%nat -> (forall i j, (r <= i < n)%nat -> (p <= j < q)%nat -> B2R (g i j) = 0) -> shape n r p piv (fun i j => B2R (g i j)) ->
  shape n (S r) (q + 1) (fun a => if (a =? r)%nat then q else piv a) (fun i j => B2R (cleared i j)).
Proof.
  intros Hp Skip (Pv & Inc & Low).
  assert (Low' : forall i j, (r <= i < n)%nat -> (j < q)%nat -> B2R (g i j) = 0).
  { intros i j Hi Hj. destruct (Nat.lt_ge_cases j p); [apply Low; lia|apply Skip; lia]. }
  split; [|split].
  - intros a Ha. destruct (Nat.eqb_spec a r) as [->|N].
    + split; [lia|]. split; [exact row_pivot|]. split; [|intros i Hi Ni; apply other_pivot; auto]. intros j Hj. apply row_zero; [lia|]. apply Low'; lia.
    + destruct (Pv a ltac:(lia)) as (L & One & Left & Col). split; [lia|]. split; [rewrite other_same; [exact One|lia|lia|lia|apply Low'; lia]|]. split.
      * intros j Hj. rewrite other_same; [apply Left, Hj|lia|lia|lia|apply Low'; lia].
      * intros i Hi Ni. destruct (Nat.eq_dec i r) as [->|Nr]; [apply row_zero; [lia|apply Low'; lia]|]. rewrite other_same; [apply Col; auto|lia|lia|lia|apply Low'; lia].
  - intros a b Hab. destruct (Nat.eqb_spec a r); [lia|]. destruct (Nat.eqb_spec b r); [destruct (Pv a ltac:(lia)); lia|apply Inc; lia].
  - intros i j Hi Hj. destruct (Nat.eq_dec j q) as [->|]; [apply other_pivot; lia|]. rewrite other_same; [apply Low'; lia|lia|lia|lia|apply Low'; lia].
Qed.
Lemma round_error x i j : (x < n)%nat -> (i < n)%nat -> (j < c)%nat -> let s := mkStep x r (fun a => qv (g a q)) in
  Rabs (B2R (g (trans x r i) j) - Rsum n (fun k => Q2R (step_matrix s i k) * B2R (cleared k j))) <=
  Rsum n (fun k => Rabs (Q2R (step_matrix s i k)) * (u * Rabs (B2R (cleared k j)) + half_least)).
Proof.
  intros Hx Hi Hj s. destruct pivot_good as (Fp & Np). pose proof u_pos as U. pose proof half_least_pos as HL. assert (Ha : (trans x r i < n)%nat) by (apply trans_lt; auto).
  rewrite (step_sum Q2R n s i (fun k => B2R (cleared k j)) Q2R_0 Q2R_1 Hr Ha). rewrite (step_sum (fun z => Rabs (Q2R z)) n s i (fun k => u * Rabs (B2R (cleared k j)) + half_least)); [|rewrite Q2R_0; apply Rabs_R0|rewrite Q2R_1; apply Rabs_R1|exact Hr|exact Ha].
  cbn [other row mult s]. change (exchanged x r i) with (trans x r i). rewrite qv_val. set (a := trans x r i) in *. destruct (Nat.eqb_spec a r) as [->|N].
  - rewrite cleared_row. apply div_error; auto. rewrite <- cleared_row. apply Fin; auto.
  - pose proof (Fin a j Ha Hj) as F. rewrite cleared_row. rewrite cleared_other in * by exact N. destruct (clear_error _ _ _ F) as (_ & _ & _ & B).
    eapply Rle_trans; [exact B|]. pose proof (Rabs_pos (B2R (g a q))). nra.
Qed.
End Round.

(** *** rref_rows *)
Lemma divA_bin x y a b : Rb x a -> Rb y b -> ret never (divA D x (Some y)) (fun z => Rb z (Bdiv mode_NE a b)).
Proof. intros -> ->. apply ret_ok, div_equiv. Qed.
Definition reduced (n c r p : nat) (g : nat -> nat -> bin) (d : Mat spec_float) : Prop := exists h, mat_of Rb d n c h /\
  ((forall i j, (i < n)%nat -> (j < c)%nat -> is_finite (h i j) = true) ->
    (forall i j, (i < n)%nat -> (j < c)%nat -> is_finite (g i j) = true) /\
    exists l, (r + length l <= n)%nat /\ valid_steps n r l /\ nears n c l (fun i j => B2R (g i j)) (fun i j => B2R (h i j)) /\
      forall piv, shape n r p piv (fun i j => B2R (g i j)) -> exists piv', shape n (r + length l) c piv' (fun i j => B2R (h i j))).
Lemma isz_B2R b : isz b = true -> B2R b = 0.
Proof. destruct b as [s|s| |s m e B]; try reflexivity. intros H. exfalso. unfold isz in H. cbn in H. destruct s; discriminate H. Qed.
Lemma shape_end n c r p piv v : (p <= c)%nat -> shape n r p piv v -> (forall i j, (r <= i < n)%nat -> (p <= j < c)%nat -> v i j = 0) -> shape n r c piv v.
Proof.
  intros Hp (Pv & Inc & Low) Rest. split; [|split; [exact Inc|]].
  - intros a Ha. destruct (Pv a Ha) as (L & H). split; [lia|exact H].
  - intros i j Hi Hj. destruct (Nat.lt_ge_cases j p); [apply Low; lia|apply Rest; lia].
Qed.
Lemma reduced_end n c r p g d : (r <= n)%nat -> (p <= c)%nat -> mat_of Rb d n c g -> (forall i j, (r <= i < n)%nat -> (p <= j < c)%nat -> B2R (g i j) = 0) -> reduced n c r p g d.
Proof.
  intros Hr Hp Hm Z. exists g. split; [exact Hm|]. intros F. split; [exact F|]. exists []. cbn [length]. rewrite Nat.add_0_r. split; [exact Hr|]. split; [exact I|]. split; [apply nears_nil; auto|].
  intros piv Sh. exists piv. eapply shape_end; eauto.
Qed.
Lemma rref_rows_bin k : forall n c r p m g, mat_of Rb m n c g -> (r + k = n)%nat -> (p <= c)%nat -> sret never (rref_rows D k r p m) (reduced n c r p g).
Proof.
  induction k as [|k IH]; intros n c r p m g Hm Hk Hp; cbn [rref_rows].
  { apply sret_done. apply reduced_end; auto; lia. }
  destruct (mat_of_dims Rb m n c g Hm) as (Dr & Dc & _). rewrite Dc. destruct (Nat.leb_spec c p) as [L|L].
  { apply sret_done. apply reduced_end; auto; lia. }
  eapply sret_eval.
  { unfold pivot_fuel. rewrite Dr, Dc. apply (find_pivot_bin _ m n c g r r p); auto; try lia. nia. }
  intros [[x q]|] H; cbn beta iota in H.
  2: { apply sret_done. apply reduced_end; auto; try lia. intros. apply isz_B2R, H; lia. }
  destruct H as (Hx & Hq & Nz & Skip). set (g1 := fun i j => g (trans x r i) j).
  assert (T : trans x r r = x) by (unfold trans; destruct (Nat.eqb_spec r x); rewrite ?Nat.eqb_refl; lia).
  assert (N1 : isz (g1 r q) = false) by (unfold g1; rewrite T; exact Nz).
  eapply sret_andthen; [apply (swap_rows_ok never Rb m n c g x r Hm); lia|]. intros m1 Hm1. cbn beta in Hm1. change (mat_of Rb m1 n c g1) in Hm1.
  eapply sret_eval; [apply (entry_of never Rb m1 n c g1 r q Hm1); lia|]. intros v Hv. cbn beta in Hv.
  eapply sret_andthen; [apply (scale_row_ok D never Rb zero (Bdiv mode_NE) (fun x y a b Hx Hy _ => divA_bin x y a b Hx Hy) m1 n c g1 r q v Hm1); auto; try lia; apply isz_zero; exact N1|].
  intros m2 Hm2. cbn beta in Hm2. change (mat_of Rb m2 n c (scaled r q g1)) in Hm2.
  eapply sret_andthen; [apply (rref_clear_ok D never Rb (Bminus mode_NE) (Bmult mode_NE) subA_bin mul_bin m2 n c _ r q Hm2); lia|].
  intros m3 Hm3. cbn beta in Hm3. change (mat_of Rb m3 n c (cleared r q g1)) in Hm3.
  eapply sret_mono; [apply (IH n c (S r) (q + 1)%nat m3 _ Hm3); lia|]. intros d (h & Hh & H). exists h. split; [exact Hh|]. intros F. destruct (H F) as (F2 & l & Hl & Val & Near & Sh).
  assert (Hrn : (r < n)%nat) by lia. assert (Hqc : (q < c)%nat) by lia.
  assert (F1 : forall i j, (i < n)%nat -> (j < c)%nat -> is_finite (g1 i j) = true) by (intros; apply (before_finite n c r q g1); auto).
  assert (Fg : forall i j, (i < n)%nat -> (j < c)%nat -> is_finite (g i j) = true) by (intros i j Hi Hj; rewrite <- (trans_back x r i); apply F1; [apply trans_lt; lia|exact Hj]).
  split; [exact Fg|]. exists (mkStep x r (fun a => qv (g1 a q)) :: l). cbn [length]. split; [lia|]. split; [|split].
  - split; [reflexivity|]. split; [cbn; lia|]. split; [|split; [|exact Val]]; cbn [mult].
    + intros E. destruct (pivot_good n c r q g1) as (_ & Np); auto. apply Np. rewrite <- qv_val, (Qeq_eqR _ _ E). apply Q2R_0.
    + intros a Ha. exists (B2SF (g1 a q)). split; [apply double_bin|]. split; [apply finite_equiv, F1; auto|reflexivity].
  - apply (nears_cons n c _ l _ (fun i j => B2R (cleared r q g1 i j))); [|exact Near]. intros i j Hi Hj.
    pose proof (round_error n c r q g1 Hrn Hqc N1 F2 x i j ltac:(lia) Hi Hj) as B. change (g1 (trans x r i) j) with (g (trans x r (trans x r i)) j) in B. rewrite trans_back in B. exact B.
  - intros piv Hs. replace (r + S (length l))%nat with (S r + length l)%nat by lia. eapply Sh. apply (shape_round n c r q g1 Hrn Hqc N1 F2 p piv); [lia| |].
    + intros i j Hi Hj. unfold g1. apply isz_B2R, Skip; [|exact Hj]. split; [apply trans_below; lia|apply trans_lt; lia].
    + apply (shape_swap n r p piv (fun i j => B2R (g i j)) x ltac:(lia) Hs).
Qed.
