(** determinant() of Mat<double> (src/Mat.hpp:357-403): backward error of the elimination. *)
From Coq Require Import Reals Qreals QArith Lra Lia SpecFloat.
From Flocq Require Import Core BinarySingleNaN Relative Plus_error.
From Verif Require Import Base IntModel IntBasics FracModel FracSpec CommonModel CommonSpec CommonProofs ElemModel ElemSpec ElemProofs VecModel VecProofs
  MatModel MatSpec MatProofs MatElim DoubleModel DoubleSpec DoubleProofs DoubleVec DoubleRange DoubleMat DoubleElim DoubleCof LUSpec.
#[local] Existing Instances Hprec Hmax Vexp.
Local Open Scope R_scope.
Local Notation u := unit_roundoff.
Local Notation D := double_ops.

(** *** One operation *)
Lemma finite_div (x y : bin) : is_finite (Bdiv mode_NE x y) = true -> is_finite y = true -> B2R y <> 0 ->
  is_finite x = true /\ B2R (Bdiv mode_NE x y) = rnd (B2R x / B2R y).
Proof.
  intros F Fy Ny. pose proof (Bdiv_correct 53 1024 Hprec Hmax mode_NE x y Ny) as C. destruct (Rlt_bool _ _).
  - destruct C as (C1 & C2 & _). rewrite C2 in F. auto.
  - exfalso. destruct (Bdiv mode_NE x y); try discriminate F; cbn [B2SF] in C; discriminate C.
Qed.
Lemma finite_minus (x y : bin) : is_finite (Bminus mode_NE x y) = true ->
  is_finite x = true /\ is_finite y = true /\ B2R (Bminus mode_NE x y) = rnd (B2R x - B2R y).
Proof.
  rewrite Bminus_opp. intros F. destruct (finite_plus _ _ F) as (Fx & Fy & E). rewrite is_finite_Bopp in Fy. rewrite B2R_Bopp in E. auto.
Qed.
Lemma rnd_minus_back (x y : bin) : Rabs (rnd (B2R x - B2R y) - (B2R x - B2R y)) <= u * Rabs (rnd (B2R x - B2R y)).
Proof.
  assert (E : exists e, Rabs e <= u /\ B2R x + - B2R y = rnd (B2R x + - B2R y) * (1 + e)).
  { destruct (FLT_plus_error_N_round_ex radix2 (-1074) 53 (fun z => negb (Z.even z)) (B2R x) (- B2R y)) as (e & He & E); [apply generic_format_B2R|apply generic_format_opp, generic_format_B2R|].
    exists e. rewrite u_val in He. split; [exact He|exact E]. }
  destruct E as (e & He & E). unfold Rminus. set (r := rnd (B2R x + - B2R y)) in *. rewrite E.
  replace (r + - (r * (1 + e))) with (- e * r) by ring. rewrite Rabs_mult, Rabs_Ropp. apply Rmult_le_compat_r; [apply Rabs_pos|exact He].
Qed.
(** x - v w / p as the loop computes it *)
Lemma step_error (x v w p : bin) : is_finite p = true -> B2R p <> 0 ->
  let y := Bminus mode_NE x (Bdiv mode_NE (Bmult mode_NE v w) p) in is_finite y = true ->
  is_finite x = true /\ is_finite v = true /\ is_finite w = true /\
  Rabs (B2R x - B2R y - B2R v / B2R p * B2R w) <= ((1 + u) ^ 2 - 1) * Rabs (B2R v / B2R p * B2R w) + u * Rabs (B2R y) + (1 + u) * half_least * (1 + / Rabs (B2R p)).
Proof.
  intros Fp Np y Fy. destruct (finite_minus _ _ Fy) as (Fx & Fq & Ey). destruct (finite_div _ _ Fq Fp Np) as (Fm & Eq). destruct (finite_mult _ _ Fm) as (Fv & Fw & Em).
  split; [exact Fx|]. split; [exact Fv|]. split; [exact Fw|].
  pose proof (rnd_minus_back x (Bdiv mode_NE (Bmult mode_NE v w) p)) as B. rewrite <- Ey in B. fold y in B. set (Y := B2R y) in *. set (X := B2R x) in *. set (Q := B2R (Bdiv mode_NE (Bmult mode_NE v w) p)) in *.
  destruct (rnd_any (B2R v * B2R w)) as (e1 & h1 & E1 & H1 & R1). rewrite <- Em in R1.
  destruct (rnd_any (B2R (Bmult mode_NE v w) / B2R p)) as (e2 & h2 & E2 & H2 & R2). rewrite <- Eq in R2. fold Q in R2. rewrite R1 in R2.
  set (L := B2R v / B2R p * B2R w). pose proof u_pos as U. pose proof half_least_pos as HL.
  assert (QL : Q - L = L * (e1 + e2 + e1 * e2) + h1 / B2R p * (1 + e2) + h2).
  { rewrite R2. unfold L. field. exact Np. }
  assert (Ip : 0 < / Rabs (B2R p)) by (apply Rinv_0_lt_compat, Rabs_pos_lt, Np).
  assert (A1 : Rabs (L * (e1 + e2 + e1 * e2)) <= ((1 + u) ^ 2 - 1) * Rabs L).
  { rewrite Rabs_mult, Rmult_comm. apply Rmult_le_compat_r; [apply Rabs_pos|]. eapply Rle_trans; [apply Rabs_triang|]. eapply Rle_trans; [apply Rplus_le_compat_r, Rabs_triang|]. rewrite Rabs_mult.
    pose proof (Rabs_pos e1). pose proof (Rabs_pos e2). nra. }
  assert (A2 : Rabs (h1 / B2R p * (1 + e2)) <= (1 + u) * half_least * / Rabs (B2R p)).
  { unfold Rdiv. rewrite !Rabs_mult, Rabs_inv. assert (Rabs (1 + e2) <= 1 + u) by (eapply Rle_trans; [apply Rabs_triang|]; rewrite Rabs_R1; lra).
    pose proof (Rabs_pos h1). pose proof (Rabs_pos (1 + e2)).
    apply Rle_trans with (half_least * / Rabs (B2R p) * (1 + u)); [|lra]. apply Rmult_le_compat; auto; [apply Rmult_le_pos; lra|]. apply Rmult_le_compat_r; lra. }
  replace (X - Y - L) with ((X - Q - Y) + (Q - L)) by ring. eapply Rle_trans; [apply Rabs_triang|]. rewrite QL.
  replace (X - Q - Y) with (- (Y - (X - Q))) by ring. rewrite Rabs_Ropp.
  assert (A3 : Rabs (L * (e1 + e2 + e1 * e2) + h1 / B2R p * (1 + e2) + h2) <= ((1 + u) ^ 2 - 1) * Rabs L + (1 + u) * half_least * / Rabs (B2R p) + half_least).
  { eapply Rle_trans; [apply Rabs_triang|]. apply Rplus_le_compat; [|exact H2]. eapply Rle_trans; [apply Rabs_triang|]. apply Rplus_le_compat; assumption. }
  nra.
Qed.
(** the errors of one step and of the later ones *)
Lemma combine_error x y L S' T' P K H' h : Rabs S' <= T' -> 1 + u <= P -> 1 <= K -> 0 <= h -> 0 <= H' ->
  Rabs (x - y - L) <= ((1 + u) ^ 2 - 1) * Rabs L + u * Rabs y + (1 + u) * half_least * h ->
  Rabs (y - S') <= (P - 1) * T' + K * half_least * H' ->
  Rabs (x - (L + S')) <= ((1 + u) * P - 1) * (Rabs L + T') + (1 + u) * K * half_least * (h + H').
Proof.
  intros HS HP HK Hh HH E1 E2. pose proof u_pos as U. pose proof half_least_pos as HL. pose proof (Rabs_pos L) as AL.
  assert (Ay : Rabs y <= T' + Rabs (y - S')) by (replace y with (S' + (y - S')) at 1 by ring; eapply Rle_trans; [apply Rabs_triang|lra]).
  replace (x - (L + S')) with ((x - y - L) + (y - S')) by ring. eapply Rle_trans; [apply Rabs_triang|].
  set (E := Rabs (y - S')) in *. assert (u * Rabs y <= u * (T' + E)) by (apply Rmult_le_compat_l; lra).
  assert ((1 + u) * E <= (1 + u) * ((P - 1) * T' + K * half_least * H')) by (apply Rmult_le_compat_l; lra).
  assert (((1 + u) ^ 2 - 1) * Rabs L <= ((1 + u) * P - 1) * Rabs L) by (apply Rmult_le_compat_r; nra).
  assert (half_least * h <= K * (half_least * h)) by (assert (0 <= half_least * h) by (apply Rmult_le_pos; lra); nra).
  assert ((1 + u) * half_least * h <= (1 + u) * (K * (half_least * h))) by (rewrite Rmult_assoc; apply Rmult_le_compat_l; lra).
  lra.
Qed.

(** *** One stage *)
Definition good (b : bin) : Prop := is_finite b = true /\ B2R b <> 0.
Definition qv (b : bin) : Q := dval (B2SF b).
Lemma qv_val b : Q2R (qv b) = B2R b.
Proof. exact (dR_bin b). Qed.
(** the upper triangle of what is left *)
Definition upper_of (g : nat -> nat -> bin) (k j : nat) : Q := if (j <? k)%nat then 0%Q else qv (g k j).
Definition term (M : nat -> nat -> Q) (g : nat -> nat -> bin) (i j k : nat) : R := Q2R (M i k) * Q2R (upper_of g k j).
(** the permutations that swapping rows gives; true: odd *)
Inductive moves (n : nat) : bool -> (nat -> nat) -> Prop :=
| moves_id : moves n false (fun i => i)
| moves_swap b q x y : (x < n)%nat -> (y < n)%nat -> x <> y -> moves n b q -> moves n (negb b) (fun i => q (trans x y i)).
Record stage (n r : nat) (g g' : nat -> nat -> bin) (q : nat -> nat) (M : nat -> nat -> Q) : Prop := {
  st_fin : forall i j, (r <= i < n)%nat -> (r <= j < n)%nat -> is_finite (g i j) = true;
  st_upper : forall k j, (r <= k)%nat -> (k <= j < n)%nat -> is_finite (g' k j) = true;
  st_below : forall i, (i < r)%nat -> q i = i;
  st_row : forall i, (r <= i < n)%nat -> (r <= q i < n)%nat /\ (M i (q i) == 1)%Q /\ forall k, (q i < k < n)%nat -> (M i k == 0)%Q;
  st_exact : forall i j, (r <= i < n)%nat -> (r <= j < n)%nat -> (q i = r \/ j = r)%nat -> B2R (g i j) = Rsum (n - r) (fun k => term M g' i j (r + k));
  st_err : forall i j, (r <= i < n)%nat -> (r <= j < n)%nat -> let c := (Nat.min (q i) j - r)%nat in
    Rabs (B2R (g i j) - Rsum (n - r) (fun k => term M g' i j (r + k))) <= ((1 + u) ^ (c + 1) - 1) * Rsum (n - r) (fun k => Rabs (term M g' i j (r + k)))
      + (1 + u) ^ c * half_least * Rsum c (fun k => 1 + / Rabs (B2R (g' (r + k)%nat (r + k)%nat))) }.
Lemma Rsum_first n f : Rsum (S n) f = f 0%nat + Rsum n (fun k => f (S k)).
Proof. induction n as [|n IH]; [cbn; lra|]. change (Rsum (S (S n)) f) with (Rsum (S n) f + f (S n)). rewrite IH. cbn [Rsum]. lra. Qed.
Lemma Rsum_shift n r f : (r < n)%nat -> Rsum (n - r) (fun k => f (r + k)%nat) = f r + Rsum (n - S r) (fun k => f (S r + k)%nat).
Proof.
  intros H. replace (n - r)%nat with (S (n - S r)) by lia. rewrite Rsum_first. rewrite Nat.add_0_r. f_equal. apply Rsum_ext. intros k _. f_equal. lia.
Qed.
Lemma Rsum_zero n f : (forall k, (k < n)%nat -> f k = 0) -> Rsum n f = 0.
Proof. intros H. induction n as [|n IH]; cbn [Rsum]; [reflexivity|]. rewrite IH, H by auto. lra. Qed.
Lemma bound_nonneg n n' f h : (forall k, (k < n)%nat -> 0 <= f k) -> (forall k, (k < n')%nat -> 0 <= h k) -> forall a b, 0 <= ((1 + u) ^ a - 1) * Rsum n f + (1 + u) ^ b * half_least * Rsum n' h.
Proof.
  intros F H a b. pose proof (pow_ge_1 a). pose proof (pow_ge_1 b). pose proof half_least_pos. apply Rsum_nonneg in F, H.
  assert (0 <= ((1 + u) ^ a - 1) * Rsum n f) by (apply Rmult_le_pos; lra). assert (0 <= (1 + u) ^ b * half_least * Rsum n' h) by (apply Rmult_le_pos; [apply Rmult_le_pos; lra|lra]). lra.
Qed.
Lemma inv_abs_nonneg x : 0 <= 1 + / Rabs x.
Proof. assert (0 <= / Rabs x) by (destruct (Req_dec x 0) as [->|N]; [rewrite Rabs_R0, Rinv_0; lra|apply Rlt_le, Rinv_0_lt_compat, Rabs_pos_lt, N]). lra. Qed.
Lemma exact_row x s n n' f h : x = s -> (forall k, (k < n)%nat -> 0 <= f k) -> (forall k, (k < n')%nat -> 0 <= h k) -> forall a b, Rabs (x - s) <= ((1 + u) ^ a - 1) * Rsum n f + (1 + u) ^ b * half_least * Rsum n' h.
Proof. intros -> F H a b. rewrite Rminus_diag_eq, Rabs_R0 by reflexivity. apply bound_nonneg; auto. Qed.
Local Ltac nonneg := intros; first [apply inv_abs_nonneg|apply Rabs_pos].

Section Stage.
Context (n r : nat) (g g' : nat -> nat -> bin) (Hr : (r < n)%nat).
Let cleared (i j : nat) : bin := if ((r <? i) && (r <=? j))%nat then Bminus mode_NE (g i j) (Bdiv mode_NE (Bmult mode_NE (g i r) (g r j)) (g r r)) else g i j.
Lemma stage_clear q M : good (g r r) -> (forall j, (j < n)%nat -> g' r j = g r j) -> stage n (S r) cleared g' q M ->
  stage n r g g' q (fun i c => if i =? r then if c =? r then 1%Q else 0%Q else if c =? r then (qv (g i r) / qv (g r r))%Q else M i c)%nat.
Proof.
  intros [Fp Np] Hrow [F Up Below Row Ex Err]. set (M1 := fun i c : nat => _).
  assert (C : forall i j, (r < i)%nat -> (r <= j)%nat -> cleared i j = Bminus mode_NE (g i j) (Bdiv mode_NE (Bmult mode_NE (g i r) (g r j)) (g r r))).
  { intros i j Hi Hj. unfold cleared. destruct (Nat.ltb_spec r i); [|lia]. destruct (Nat.leb_spec r j); [reflexivity|lia]. }
  assert (St : forall i j, (r < i < n)%nat -> (r < j < n)%nat -> is_finite (g i j) = true /\ is_finite (g i r) = true /\ is_finite (g r j) = true /\
    Rabs (B2R (g i j) - B2R (cleared i j) - B2R (g i r) / B2R (g r r) * B2R (g r j)) <=
      ((1 + u) ^ 2 - 1) * Rabs (B2R (g i r) / B2R (g r r) * B2R (g r j)) + u * Rabs (B2R (cleared i j)) + (1 + u) * half_least * (1 + / Rabs (B2R (g r r)))).
  { intros i j Hi Hj. rewrite (C i j) by lia. apply step_error; auto. rewrite <- (C i j) by lia. apply F; lia. }
  assert (Ud : forall j, (r <= j < n)%nat -> Q2R (upper_of g' r j) = B2R (g r j)).
  { intros j Hj. unfold upper_of. destruct (Nat.ltb_spec j r); [lia|]. rewrite qv_val, Hrow by lia. reflexivity. }
  assert (Nq : ~ (qv (g r r) == 0)%Q) by (intros E; apply Np; rewrite <- qv_val, (Qeq_eqR _ _ E); unfold Q2R; cbn; lra).
  assert (Fin : forall i j, (r <= i < n)%nat -> (r <= j < n)%nat -> is_finite (g i j) = true).
  { intros i j Hi Hj. destruct (Nat.eq_dec i r) as [->|Ni], (Nat.eq_dec j r) as [->|Nj].
    - exact Fp.
    - apply (St j j); lia.
    - apply (St i i); lia.
    - apply (St i j); lia. }
  assert (T0 : forall i j, i <> r -> (r <= j < n)%nat -> term M1 g' i j r = B2R (g i r) / B2R (g r r) * B2R (g r j)).
  { intros i j Ni Hj. unfold term, M1. destruct (Nat.eqb_spec i r); [lia|]. rewrite Nat.eqb_refl, Ud by exact Hj. rewrite Q2R_div, !qv_val by exact Nq. reflexivity. }
  assert (Tk : forall i j k, i <> r -> term M1 g' i j (S r + k) = term M g' i j (S r + k)).
  { intros i j k Ni. unfold term, M1. destruct (Nat.eqb_spec i r); [lia|]. destruct (Nat.eqb_spec (S r + k) r); [lia|]. reflexivity. }
  assert (Exact : forall i j, (r <= i < n)%nat -> (r <= j < n)%nat -> (q i = r \/ j = r)%nat -> B2R (g i j) = Rsum (n - r) (fun k => term M1 g' i j (r + k))).
  { intros i j Hi Hj Hc. rewrite (Rsum_shift n r (term M1 g' i j)) by exact Hr. destruct (Nat.eq_dec i r) as [->|Ni].
    - rewrite Rsum_zero.
      + unfold term, M1. rewrite Nat.eqb_refl, Ud by exact Hj. unfold Q2R. cbn. field.
      + intros k Hk. unfold term, M1. rewrite Nat.eqb_refl. destruct (Nat.eqb_spec (S r + k) r); [lia|]. unfold Q2R at 1. cbn. lra.
    - destruct Hc as [Hc| ->]; [destruct (Row i ltac:(lia)); lia|]. rewrite T0 by auto. rewrite Rsum_zero; [field; exact Np|].
      intros k Hk. unfold term, upper_of. destruct (Nat.ltb_spec r (S r + k)); [|lia]. unfold Q2R at 2. cbn. lra. }
  constructor.
  - exact Fin.
  - intros k j Hk Hj. destruct (Nat.eq_dec k r) as [->|Nk]; [rewrite Hrow by lia; apply Fin; lia|apply Up; lia].
  - intros i Hi. apply Below. lia.
  - intros i Hi. unfold M1. destruct (Nat.eqb_spec i r) as [->|Ni].
    + rewrite (Below r) by lia. rewrite Nat.eqb_refl. split; [lia|]. split; [reflexivity|]. intros k Hk. destruct (Nat.eqb_spec k r); [lia|reflexivity].
    + destruct (Row i ltac:(lia)) as (R1 & R2 & R3). destruct (Nat.eqb_spec (q i) r); [lia|]. split; [lia|]. split; [exact R2|]. intros k Hk. destruct (Nat.eqb_spec k r); [lia|]. apply R3, Hk.
  - exact Exact.
  - intros i j Hi Hj c. destruct (Nat.eq_dec i r) as [->|Ni]; [apply exact_row; [apply Exact; auto|nonneg|nonneg]|].
    destruct (Nat.eq_dec j r) as [->|Nj]; [apply exact_row; [apply Exact; auto|nonneg|nonneg]|].
    pose proof (T0 i j Ni Hj) as T. pose proof (fun k => Tk i j k Ni) as Tk'. destruct (Row i ltac:(lia)) as (Rq & _).
    rewrite (Rsum_shift n r (term M1 g' i j)) by exact Hr. rewrite (Rsum_shift n r (fun k => Rabs (term M1 g' i j k))) by exact Hr. rewrite T.
    rewrite (Rsum_ext (n - S r) _ (fun k => term M g' i j (S r + k))) by (intros; apply Tk').
    rewrite (Rsum_ext (n - S r) (fun k => Rabs (term M1 g' i j (S r + k))) (fun k => Rabs (term M g' i j (S r + k)))) by (intros; rewrite Tk'; reflexivity).
    set (c' := (Nat.min (q i) j - S r)%nat). assert (Ec : c = S c') by (unfold c, c'; lia). rewrite Ec.
    rewrite Rsum_first, Nat.add_0_r, Hrow by exact Hr. rewrite (Rsum_ext c' _ (fun k => 1 + / Rabs (B2R (g' (S r + k)%nat (S r + k)%nat)))) by (intros k _; replace (r + S k)%nat with (S r + k)%nat by lia; reflexivity).
    change ((1 + u) ^ (S c' + 1)) with ((1 + u) * (1 + u) ^ (c' + 1)). change ((1 + u) ^ S c') with ((1 + u) * (1 + u) ^ c').
    apply combine_error with (y := B2R (cleared i j)).
    + apply Rsum_abs.
    + rewrite pow_add, pow_1. pose proof (pow_ge_1 c'). pose proof u_pos. nra.
    + apply pow_ge_1.
    + apply inv_abs_nonneg.
    + apply Rsum_nonneg. nonneg.
    + apply St; lia.
    + apply Err; lia.
Qed.
Lemma stage_swap x q M : (r <= x < n)%nat -> stage n r (fun i j => g (trans x r i) j) g' q M -> stage n r g g' (fun i => q (trans x r i)) (fun i => M (trans x r i)).
Proof.
  intros Hx [F Up Below Row Ex Err].
  assert (T : forall i, (r <= i < n)%nat -> (r <= trans x r i < n)%nat /\ trans x r (trans x r i) = i).
  { intros i Hi. unfold trans. destruct (Nat.eqb_spec i x), (Nat.eqb_spec i r); subst; rewrite ?Nat.eqb_refl; try lia; repeat match goal with |- context [(?a =? ?b)%nat] => destruct (Nat.eqb_spec a b) end; lia. }
  constructor.
  - intros i j Hi Hj. destruct (T i Hi) as [T1 T2]. pose proof (F (trans x r i) j T1 Hj) as H. cbn beta in H. rewrite T2 in H. exact H.
  - exact Up.
  - intros i Hi. rewrite <- (Below i Hi) at 2. f_equal. unfold trans. destruct (Nat.eqb_spec i x); [lia|]. destruct (Nat.eqb_spec i r); [lia|reflexivity].
  - intros i Hi. apply Row, T, Hi.
  - intros i j Hi Hj Hc. destruct (T i Hi) as [T1 T2]. pose proof (Ex (trans x r i) j T1 Hj Hc) as H. cbn beta in H. rewrite T2 in H. exact H.
  - intros i j Hi Hj. destruct (T i Hi) as [T1 T2]. pose proof (Err (trans x r i) j T1 Hj) as H. cbn beta in H. rewrite T2 in H. exact H.
Qed.
Lemma stage_same q M : stage n r (fun i j => g (trans r r i) j) g' q M -> stage n r g g' q M.
Proof.
  intros [F Up Below Row Ex Err]. assert (Id : forall i, trans r r i = i) by (intros i; unfold trans; destruct (Nat.eqb_spec i r); subst; reflexivity).
  constructor; auto.
  - intros i j Hi Hj. specialize (F i j Hi Hj). cbn beta in F. rewrite Id in F. exact F.
  - intros i j Hi Hj Hc. specialize (Ex i j Hi Hj Hc). cbn beta in Ex. rewrite Id in Ex. exact Ex.
  - intros i j Hi Hj. specialize (Err i j Hi Hj). cbn beta in Err. rewrite Id in Err. exact Err.
Qed.
End Stage.

(** *** The loops *)
Definition isz (b : bin) : bool := SFeqb (B2SF b) (double_of_int 0).
Lemma isz_good b : isz b = true -> ~ good b.
Proof.
  unfold isz. intros E [F N]. change (double_of_int 0) with (B2SF (B754_zero false : bin)) in E. rewrite eqb_equiv, Beqb_correct in E by auto.
  destruct (Req_bool_spec (B2R b) (B2R (B754_zero false : bin))) as [Z|Z]; [apply N; exact Z|discriminate E].
Qed.
Lemma isz_zero b : isz b = false -> b <> zero.
Proof. intros E ->. discriminate E. Qed.
Lemma find_pivot_bin fuel : forall m n c g r i p, mat_of Rb m n c g -> (r <= i < n)%nat -> (p < c)%nat ->
  (forall k, (r <= k < i)%nat -> isz (g k p) = true) -> ((c - p - 1) * n + (n - i) <= fuel)%nat ->
  ret never (find_pivot D fuel m r i p) (fun o => match o with
    | None => forall k q, (r <= k < n)%nat -> (p <= q < c)%nat -> isz (g k q) = true
    | Some (k, q) => (r <= k < n)%nat /\ (p <= q < c)%nat /\ isz (g k q) = false /\ forall k' q', (r <= k' < n)%nat -> (p <= q' < q)%nat -> isz (g k' q') = true
    end).
Proof.
  induction fuel as [|fuel IH]; intros m n c g r i p Hm Hi Hp Hz Hf; [exfalso; clear -Hi Hf; nia|]. cbn [find_pivot].
  eapply ret_bind; [apply (entry_of never Rb m n c g i p); auto; lia|]. intros x Hx. cbn beta in Hx.
  eapply (ret_bind never) with (P := fun z => z = isz (g i p)); [apply ret_ok; rewrite Hx; reflexivity|]. intros z ->.
  destruct (mat_of_dims Rb m n c g Hm) as (-> & -> & _). destruct (isz (g i p)) eqn:Ez.
  - assert (Hz' : forall k, (r <= k < i + 1)%nat -> isz (g k p) = true).
    { intros k Hk. destruct (Nat.eq_dec k i) as [->|]; [auto|apply Hz; lia]. }
    destruct (Nat.eqb_spec n (i + 1)) as [En|En].
    + destruct (Nat.eqb_spec c (p + 1)) as [Ec|Ec].
      * apply ret_ok. intros k q Hk Hq. assert (q = p) as -> by lia. apply Hz'. lia.
      * eapply ret_mono.
        -- apply (IH m n c g r r (p + 1)%nat); auto; try lia.
           replace (c - p - 1)%nat with (S (c - (p + 1) - 1)) in Hf by lia. rewrite Nat.mul_succ_l in Hf. lia.
        -- intros [[k q]|]; cbn beta iota.
           ++ intros (H1 & H2 & H3 & H4). split; [lia|]. split; [lia|]. split; [auto|]. intros k' q' Hk' Hq'.
              destruct (Nat.eq_dec q' p) as [->|]; [apply Hz'; lia|apply H4; lia].
           ++ intros H k q Hk Hq. destruct (Nat.eq_dec q p) as [->|]; [apply Hz'; lia|apply H; lia].
    + apply (IH m n c g r (i + 1)%nat p); auto; lia.
  - apply ret_ok. split; [lia|]. split; [lia|]. split; [auto|]. intros k' q' _ H. lia.
Qed.
Definition sgn (b : bool) : spec_float := double_of_int (if b then -1 else 1).
Lemma subA_bin : assign_exact never Rb Rb Rb (subA D) (Bminus mode_NE).
Proof. split; [intros x y a b -> ->|intros x a -> _]; apply ret_ok, dsub_equiv. Qed.
Lemma div_bin x y a b : Rb x a -> Rb y b -> ret never (div D x y) (fun z => Rb z (Bdiv mode_NE a b)).
Proof. intros -> ->. apply ret_ok, div_equiv. Qed.
(** what det_rows leaves; with what it says when every pivot is on the diagonal *)
Definition rows_post (n r p : nat) (b : bool) (g : nat -> nat -> bin) (o : Mat spec_float * spec_float) : Prop := exists g' b', mat_of Rb (fst o) n n g' /\ snd o = sgn b' /\
  (forall i j, (i < r)%nat -> (j < n)%nat -> g' i j = g i j) /\
  (p = r -> (forall i, (r <= i < n)%nat -> good (g' i i)) -> exists q M s, stage n r g g' q M /\ moves n s q /\ b' = xorb b s).
Lemma det_rows_bin k : forall n r p m b g, mat_of Rb m n n g -> (r + k = n)%nat -> (r <= p)%nat ->
  ret never (det_rows D k r m (sgn b) p) (rows_post n r p b g).
Proof.
  induction k as [|k IH]; intros n r p m b g Hm Hk Hp; cbn [det_rows].
  { apply ret_ok. exists g, b. split; [exact Hm|]. split; [reflexivity|]. split; [auto|]. intros _ _.
    exists (fun i => i), (fun _ _ => 0%Q), false. split; [|split; [apply moves_id|destruct b; reflexivity]]. constructor; intros; try lia. }
  destruct (mat_of_dims Rb m n n g Hm) as (Dr & Dc & _). rewrite Dc. destruct (Nat.leb_spec n p) as [L|L].
  { apply ret_ok. exists g, b. split; [exact Hm|]. split; [reflexivity|]. split; [auto|]. intros E _. lia. }
  eapply ret_bind.
  { unfold pivot_fuel. rewrite Dr, Dc. apply (find_pivot_bin _ m n n g r r p); auto; try lia. nia. }
  intros [[x p']|] H; cbn beta iota in H.
  2: { apply ret_ok. exists g, b. split; [exact Hm|]. split; [reflexivity|]. split; [auto|]. intros -> G. exfalso. apply (isz_good (g r r)); [apply H; lia|apply G; lia]. }
  destruct H as (Hx & Hp' & Nz & Skip).
  set (g1 := fun i j => g (trans x r i) j).
  assert (T : trans x r r = x) by (unfold trans; destruct (Nat.eqb_spec r x); rewrite ?Nat.eqb_refl; lia).
  assert (Fix : forall i, (i < r)%nat -> trans x r i = i) by (intros i Hi; unfold trans; destruct (Nat.eqb_spec i x); [lia|]; destruct (Nat.eqb_spec i r); [lia|reflexivity]).
  eapply (ret_bind never) with (P := fun o => mat_of Rb (fst o) n n g1 /\ snd o = sgn (if x =? r then b else negb b)%nat).
  { destruct (Nat.eqb_spec x r) as [E|E].
    - apply ret_ok. split; [|reflexivity]. eapply mat_of_ext; [exact Hm|]. intros i j _ _. unfold g1, trans. subst x. destruct (Nat.eqb_spec i r); subst; reflexivity.
    - eapply ret_bind; [apply ret_final; apply (swap_rows_ok never Rb m n n g x r Hm); lia|]. intros t Ht. cbn beta in Ht.
      eapply (ret_bind never) with (P := fun f => f = sgn (negb b)); [apply ret_ok; destruct b; reflexivity|]. intros f ->. apply ret_ok. split; [exact Ht|reflexivity]. }
  intros [t f] [Ht Hf]. cbn [fst snd] in Ht, Hf. subst f.
  assert (Np : g1 r p' <> zero) by (unfold g1; rewrite T; apply isz_zero, Nz).
  eapply ret_bind.
  { apply ret_final. apply (det_clear_ok D never Rb zero (Bminus mode_NE) (Bmult mode_NE) (Bdiv mode_NE) subA_bin mul_bin (fun x y a b Hx Hy _ => div_bin x y a b Hx Hy) t n n g1 r p' Ht); auto; lia. }
  intros t' Ht'. cbn beta in Ht'.
  eapply ret_mono; [apply (IH n (S r) (p' + 1)%nat t' _ _ Ht'); lia|].
  intros [m' f'] (g' & b' & Hm' & Hf' & Keep & Rec). exists g', b'. split; [exact Hm'|]. split; [exact Hf'|].
  assert (Row : forall j, (j < n)%nat -> g' r j = g1 r j).
  { intros j Hj. rewrite Keep by lia. destruct (Nat.ltb_spec p' r); [lia|]. reflexivity. }
  split.
  { intros i j Hi Hj. rewrite Keep by lia. destruct (Nat.ltb_spec p' i); [lia|]. cbn [andb]. unfold g1. rewrite Fix by lia. reflexivity. }
  intros -> G. destruct (Nat.eq_dec p' r) as [->|Np'].
  2: { exfalso. apply (isz_good (g' r r)); [|apply G; lia]. rewrite Row by lia. unfold g1. rewrite T. apply Skip; lia. }
  destruct (Rec ltac:(lia)) as (q & M & s & St & Mv & Eb); [intros i Hi; apply G; lia|].
  assert (Gp : good (g1 r r)) by (rewrite <- Row by lia; apply G; lia).
  assert (Hr : (r < n)%nat) by lia. pose proof (stage_clear n r g1 g' Hr q M Gp Row St) as Q.
  destruct (Nat.eqb_spec x r) as [E|E].
  - subst x. eexists q, _, s. split; [|split; [exact Mv|exact Eb]]. apply stage_same in Q. exact Q.
  - apply (stage_swap n r g g' Hr x) in Q; [|lia]. eexists _, _, (negb s). split; [exact Q|]. split; [apply moves_swap; auto; lia|]. subst b'. destruct b, s; reflexivity.
Qed.

(** *** The product of the pivots *)
Lemma good_mult (x y : bin) : good (Bmult mode_NE x y) -> good x /\ good y /\ B2R (Bmult mode_NE x y) = rnd (B2R x * B2R y).
Proof.
  intros [F N]. destruct (finite_mult _ _ F) as (Fx & Fy & E). assert (P : B2R x * B2R y <> 0) by (intros Z; apply N; rewrite E, Z; apply rnd_zero).
  split; [|split; [|exact E]]; (split; [assumption|]); intros Z; apply P; rewrite Z; ring.
Qed.
Definition one : bin := bin_of (double_of_int 1).
Lemma one_SF : double_of_int 1 = B2SF one.
Proof. unfold one. rewrite bin_of_ok; reflexivity. Qed.
Fixpoint prod_to (g : nat -> nat -> bin) (k : nat) : bin := match k with O => one | S k => Bmult mode_NE (prod_to g k) (g k k) end.
Lemma one_val : B2R one = 1.
Proof. rewrite <- dR_bin, <- one_SF. apply R_double_1. Qed.
Lemma prod_good g n : good (prod_to g n) -> forall k, (k <= n)%nat -> good (prod_to g k) /\ ((k < n)%nat -> good (g k k)).
Proof.
  induction n as [|n IH]; intros G k Hk.
  - assert (k = 0)%nat as -> by lia. split; [exact G|lia].
  - cbn [prod_to] in G. pose proof (good_mult _ _ G) as (G1 & G2 & _). destruct (Nat.eq_dec k (S n)) as [->|Nk]; [split; [exact G|lia]|].
    destruct (IH G1 k ltac:(lia)) as [H1 H2]. split; [exact H1|]. intros _. destruct (Nat.eq_dec k n) as [->|]; [exact G2|apply H2; lia].
Qed.
(** the product is close unless one of the partial products is too small *)
Lemma prod_close g n : (1 <= n)%nat -> good (prod_to g n) ->
  (forall k, (1 <= k <= n)%nat -> powerRZ 2 (-1022) <= (1 - u) ^ (n - 1) * Rabs (Rprod k (fun i => B2R (g i i)))) ->
  Rabs (B2R (prod_to g n) - Rprod n (fun i => B2R (g i i))) <= ((1 + u) ^ (n - 1) - 1) * Rabs (Rprod n (fun i => B2R (g i i))).
Proof.
  intros Hn G Hp. pose proof u_pos as U. set (p k := Rprod k (fun i => B2R (g i i))) in *.
  assert (C : forall k, (k < n)%nat -> exists t, B2R (prod_to g (S k)) = p (S k) * t /\ (1 - u) ^ k <= t <= (1 + u) ^ k).
  { induction k as [|k IH]; intros Hk.
    - exists 1. split; [|cbn [pow]; lra]. assert (G1 : good (prod_to g 1)) by (apply (prod_good g n G); lia). change (prod_to g 1) with (Bmult mode_NE one (g 0%nat 0%nat)) in *.
      destruct (good_mult _ _ G1) as (_ & _ & ->). rewrite one_val, Rmult_1_l, rnd_format by apply generic_format_B2R. unfold p. cbn [Rprod]. ring.
    - destruct (IH ltac:(lia)) as (t & E & Ht). assert (G1 : good (prod_to g (S (S k)))) by (apply (prod_good g n G); lia).
      change (prod_to g (S (S k))) with (Bmult mode_NE (prod_to g (S k)) (g (S k) (S k))) in *. destruct (good_mult _ _ G1) as (_ & _ & E1). rewrite E in E1.
      assert (Pt : 0 < t) by (destruct Ht; pose proof (pow_low k); lra).
      assert (E2 : p (S k) * t * B2R (g (S k) (S k)) = p (S (S k)) * t) by (unfold p; cbn [Rprod]; ring). rewrite E2 in E1.
      assert (Mono : (1 - u) ^ (n - 1) <= (1 - u) ^ k).
      { replace (n - 1)%nat with (k + (n - 1 - k))%nat by lia. rewrite pow_add. pose proof (pow_low k). pose proof (pow_low (n - 1 - k)). nra. }
      destruct (rnd_normal (p (S (S k)) * t)) as (e & He & Ee).
      { rewrite Rabs_mult, (Rabs_pos_eq t) by lra. rewrite Rmult_comm. eapply Rle_trans; [apply (Hp (S (S k))); lia|]. apply Rmult_le_compat_r; [apply Rabs_pos|lra]. }
      exists (t * (1 + e)). split; [rewrite E1, Ee; ring|]. apply Rabs_le_inv in He. cbn [pow]. pose proof (pow_low k). pose proof (pow_ge_1 k). split; nra. }
  destruct (C (n - 1)%nat ltac:(lia)) as (t & E & Ht). replace (S (n - 1)) with n in E by lia. rewrite E. change (Rprod n _) with (p n).
  replace (p n * t - p n) with ((t - 1) * p n) by ring. rewrite Rabs_mult. apply Rmult_le_compat_r; [apply Rabs_pos|]. pose proof (pow_pair (n - 1)). apply Rabs_le. lra.
Qed.
Lemma sgn_bin b : exists s : bin, sgn b = B2SF s /\ is_finite s = true /\ B2R s = (if b then -1 else 1).
Proof.
  destruct (of_int_exact (if b then -1 else 1)%Z) as (s & E & V & F & _); [destruct b; cbn; lia|]. exists s. split; [exact E|]. split; [exact F|]. rewrite V. destruct b; reflexivity.
Qed.
Lemma div_sgn b s (x : bin) : sgn b = B2SF s -> is_finite s = true -> B2R s = (if b then -1 else 1) -> good (Bdiv mode_NE x s) -> good x /\ B2R (Bdiv mode_NE x s) = (if b then -1 else 1) * B2R x.
Proof.
  intros E F V [Fd Nd]. assert (Ns : B2R s <> 0) by (rewrite V; destruct b; lra). destruct (finite_div _ _ Fd F Ns) as (Fx & Ed).
  assert (Q : B2R (Bdiv mode_NE x s) = (if b then -1 else 1) * B2R x).
  { rewrite Ed, V. destruct b.
    - replace (B2R x / -1) with (B2R (Bopp x)) by (rewrite B2R_Bopp; field). rewrite rnd_format by apply generic_format_B2R. rewrite B2R_Bopp. ring.
    - replace (B2R x / 1) with (B2R x) by field. rewrite rnd_format by apply generic_format_B2R. ring. }
  split; [|exact Q]. split; [exact Fx|]. intros Z. apply Nd. rewrite Q, Z. ring.
Qed.
Lemma determinant_bin n m g : (3 <= n)%nat -> mat_of Rb m n n g -> exists d : bin, determinant D m = Ok (B2SF d) /\
  (good d -> exists g' q M s, stage n 0 g g' q M /\ moves n s q /\ good (prod_to g' n) /\ B2R d = (if s then -1 else 1) * B2R (prod_to g' n)).
Proof.
  intros Hn Hm. assert (R : ret never (determinant D m) (fun x => exists d : bin, x = B2SF d /\
    (good d -> exists g' q M s, stage n 0 g g' q M /\ moves n s q /\ good (prod_to g' n) /\ B2R d = (if s then -1 else 1) * B2R (prod_to g' n)))).
  { unfold determinant. destruct (mat_of_dims Rb m n n g Hm) as (-> & -> & _). rewrite Nat.eqb_refl. cbn [negb]. destruct (Nat.eqb_spec n 1); [lia|]. destruct (Nat.eqb_spec n 2); [lia|].
    eapply ret_bind; [apply (Mat_copy_ok D never Rb m n n g Hm)|]. intros t Ht. cbn beta in Ht. destruct (mat_of_dims Rb t n n g Ht) as (Dt & _). rewrite Dt.
    eapply ret_bind; [apply (det_rows_bin n n 0 0 t false g Ht); lia|]. intros [t' f] (g' & b & Ht' & Hf & _ & St). cbn [fst snd] in *. subst f. destruct (mat_of_dims Rb t' n n g' Ht') as (Dt' & _). rewrite Dt'.
    eapply ret_bind.
    { apply ret_final. apply (sret_for never (fun k p => p = B2SF (prod_to g' k)) n 0 _ (of_int D 1)); [apply one_SF|].
      intros k x Hk ->. eapply (sret_eval never _ _ _ (fun z => z = B2SF (prod_to g' (S k)))); [|intros z ->; apply sret_done; reflexivity].
      eapply ret_bind; [apply (entry_of never Rb t' n n g' k k Ht'); lia|]. intros y ->. apply ret_ok. cbn [rd prod_to]. apply mul_equiv. }
    intros p ->. destruct (sgn_bin b) as (s & Es & Fs & Vs). rewrite Es. apply ret_ok. exists (Bdiv mode_NE (prod_to g' (n + 0)) s). rewrite Nat.add_0_r. split; [apply div_equiv|]. intros G.
    destruct (div_sgn b s _ Es Fs Vs G) as (Gp & V). destruct St as (q & M & s' & St & Mv & Eb); [reflexivity| |].
    - intros i Hi. apply (prod_good g' n Gp i); lia.
    - exists g', q, M, s'. rewrite V, Eb. split; [exact St|]. split; [exact Mv|]. split; [exact Gp|]. destruct s'; reflexivity. }
  destruct (ret_False _ _ R) as (x & E & d & -> & H). exists d. auto.
Qed.
