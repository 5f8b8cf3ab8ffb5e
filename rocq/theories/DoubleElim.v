(** Elimination on Mat<double> (src/Mat.hpp:357-473): diagonal matrices are inverted with one
    rounding each, determinants of triangular ones are close. *)
From Coq Require Import Reals Qreals QArith Lra Lia SpecFloat.
From Flocq Require Import Core BinarySingleNaN Relative.
From Verif Require Import Base IntModel IntBasics FracModel FracSpec CommonModel CommonSpec CommonProofs ElemModel ElemSpec ElemProofs VecModel VecProofs
  MatModel MatSpec MatProofs MatElim TriProofs DoubleModel DoubleSpec DoubleProofs DoubleVec DoubleRange DoubleMat SimSpec.
#[local] Existing Instances Hprec Hmax Vexp.
Local Open Scope R_scope.
Local Notation u := unit_roundoff.

(** *** Operations that do not overflow *)
Lemma mul_rnd x y a b : R_double x a -> R_double y b -> Rabs (a * b) < overflow_at -> R_double (SFmul 53 1024 x y) (rnd (a * b)).
Proof.
  intros Hx Hy L. destruct (R_double_bin x a Hx) as (p & -> & Fp & <-). destruct (R_double_bin y b Hy) as (q & -> & Fq & <-). rewrite mul_equiv.
  pose proof (Bmult_correct 53 1024 Hprec Hmax mode_NE p q) as C. rewrite Rlt_bool_true in C by apply rnd_below_top, L.
  destruct C as (C1 & C2 & _). rewrite Fp, Fq in C2. rewrite <- C1. apply bin_double, C2.
Qed.
Lemma div_rnd x y a b : R_double x a -> R_double y b -> b <> 0 -> Rabs (a / b) < overflow_at -> R_double (SFdiv 53 1024 x y) (rnd (a / b)).
Proof.
  intros Hx Hy Nz L. destruct (R_double_bin x a Hx) as (p & -> & Fp & <-). destruct (R_double_bin y b Hy) as (q & -> & Fq & <-). rewrite div_equiv.
  pose proof (Bdiv_correct 53 1024 Hprec Hmax mode_NE p q Nz) as C. rewrite Rlt_bool_true in C by apply rnd_below_top, L.
  destruct C as (C1 & C2 & _). rewrite Fp in C2. rewrite <- C1. apply bin_double, C2.
Qed.
Lemma sub_rnd x y a b : R_double x a -> R_double y b -> Rabs (a - b) < overflow_at -> R_double (dsub x y) (rnd (a - b)).
Proof.
  intros Hx Hy L. destruct (R_double_bin x a Hx) as (p & -> & Fp & <-). destruct (R_double_bin y b Hy) as (q & -> & Fq & <-). rewrite dsub_equiv.
  pose proof (Bminus_correct 53 1024 Hprec Hmax mode_NE p q Fp Fq) as C. rewrite Rlt_bool_true in C by apply rnd_below_top, L.
  destruct C as (C1 & C2 & _). rewrite <- C1. apply bin_double, C2.
Qed.
Lemma R_double_rnd x a : R_double x a -> rnd a = a.
Proof. intros H. destruct (R_double_bin x a H) as (b & _ & _ & <-). apply rnd_format, generic_format_B2R. Qed.
Lemma R_double_small x a : R_double x a -> Rabs a < overflow_at.
Proof.
  intros H. destruct (R_double_bin x a H) as (b & _ & F & <-). pose proof (bpow_gt_0 radix2 970) as P.
  pose proof (abs_B2R_le_emax_minus_prec 53 1024 Hprec b) as L. eapply Rle_lt_trans; [exact L|]. change (1024 - 53)%Z with 971%Z.
  rewrite overflow_bpow, top_bpow. change (bpow radix2 971) with (bpow radix2 (1 + 970)). rewrite bpow_plus. change (bpow radix2 1) with 2. lra.
Qed.
Lemma largest_below : largest < overflow_at.
Proof. rewrite overflow_bpow, largest_970. pose proof (bpow_gt_0 radix2 970). lra. Qed.
Lemma rnd_zero : rnd 0 = 0.
Proof. apply round_0. typeclasses eauto. Qed.
Lemma R_double_0 : R_double (double_of_int 0) 0.
Proof. split; [reflexivity|]. split; [exact I|]. unfold dR. cbn. unfold Q2R. cbn. lra. Qed.
Lemma R_double_1 : R_double (double_of_int 1) 1.
Proof.
  split; [reflexivity|]. split; [exact I|]. unfold dR. replace (dval (double_of_int 1)) with (4503599627370496 # 4503599627370496)%Q by (vm_compute; reflexivity).
  unfold Q2R. cbn [Qnum Qden]. lra.
Qed.
Lemma overflow_pos : 0 < overflow_at.
Proof. rewrite overflow_bpow. pose proof (bpow_gt_0 radix2 970). lra. Qed.
Lemma mul_0 x y a b : R_double x a -> R_double y b -> a * b = 0 -> R_double (SFmul 53 1024 x y) 0.
Proof. intros Hx Hy E. rewrite <- rnd_zero, <- E. apply mul_rnd; auto. rewrite E, Rabs_R0. apply overflow_pos. Qed.
Lemma sub_0 x y a : R_double x a -> R_double y 0 -> R_double (dsub x y) a.
Proof.
  intros Hx Hy. rewrite <- (R_double_rnd x a Hx) at 1. replace a with (a - 0) at 1 by ring. apply sub_rnd; auto. rewrite Rminus_0_r. apply (R_double_small x), Hx.
Qed.
Lemma div_exact x y a b c d : R_double x a -> R_double y b -> b <> 0 -> R_double d c -> a / b = c -> R_double (SFdiv 53 1024 x y) c.
Proof. intros Hx Hy Nz Hd E. rewrite <- (R_double_rnd d c Hd), <- E. apply div_rnd; auto. rewrite E. apply (R_double_small d), Hd. Qed.
Lemma eqb_values x y a b : R_double x a -> R_double y b -> (SFeqb x y = true <-> a = b).
Proof.
  intros Hx Hy. destruct (R_double_bin x a Hx) as (p & -> & Fp & <-). destruct (R_double_bin y b Hy) as (q & -> & Fq & <-). rewrite eqb_equiv.
  rewrite Beqb_correct by auto. destruct (Req_bool_spec (B2R p) (B2R q)); split; intros; auto; congruence.
Qed.

(** *** Diagonal matrices *)
Lemma inverse_loop {T A} (E : ops T) ab (R : T -> A -> Prop) n r identity res (h : nat -> nat -> A) e : mat_of R r n (n + n) h -> mat_of R identity n n e -> dims res n n ->
  (forall i j x y, (i < n)%nat -> (j < n)%nat -> R x (h i j) -> R y (e i j) -> ret ab (ElemModel.eqb E x y) (fun b => b = true)) ->
  sret ab (for2 n n (fun i j result =>
    eval result (x <- entry r i j ;; y <- entry identity i j ;; ElemModel.eqb E x y) (fun e : bool =>
      if e then eval result (entry r i (j + n)) (fun x => set_entry result i j x)
      else (result, Throw DomainError))) res) (fun d => mat_of R d n n (fun i j => h i (j + n)%nat)).
Proof.
  intros Hr Hi Dres Heq. eapply sret_mono; [|intros d Hd; apply mat_of_P; exact Hd].
  eapply each_ok; [exact (matP_any _ _ _ Dres)|]. intros i j d Li Lj Hd.
  eapply (sret_eval ab d _ _ (fun b => b = true)).
  - eapply ret_bind; [apply (entry_of ab R r n (n + n) h i j Hr); lia|]. intros x Hx. eapply ret_bind; [apply (entry_of ab R identity n n e i j Hi); lia|]. intros y Hy. apply (Heq i j); auto.
  - intros b ->. eapply sret_eval; [apply (entry_of ab R r n (n + n) h i (j + n) Hr); lia|]. intros x Hx. cbn beta in Hx.
    eapply set_ok; [exact Hd|exact Li|exact Lj| |].
    + unfold mixed. rewrite before_new. exists x. auto.
    + intros i' j' o _ _ N. unfold mixed. rewrite before_other; auto.
Qed.
Section Diagonal.
Context (n : nat) (v : nat -> R).
Hypotheses (Hv : forall i, (i < n)%nat -> v i <> 0) (Ho : forall i, (i < n)%nat -> Rabs (/ v i) < overflow_at).
(** the augmented matrix when r rows are done *)
Definition diag_state (r i j : nat) : R :=
  if (j <? n)%nat then if (i =? j)%nat then if (i <? r)%nat then 1 else v i else 0
  else if (i =? j - n)%nat then if (i <? r)%nat then rnd (/ v i) else 1 else 0.
Local Notation state r d := (mat_of R_double d n (n + n) (diag_state r)).
Local Notation D := double_ops.
Ltac cases := repeat match goal with
  | |- context [(?a =? ?b)%nat] => destruct (Nat.eqb_spec a b); subst; cbn [andb orb] in *
  | |- context [(?a <? ?b)%nat] => destruct (Nat.ltb_spec a b); cbn [andb orb] in *
  end; auto; try lia; try congruence.

Lemma diag_divide r m y : (r < n)%nat -> state r m -> R_double y (v r) ->
  sret never (for_ (n + n) 0 (fun j m => assign_entry (divA D) m r j (Some y)) m) (fun d => state (S r) d).
Proof.
  intros Hr Hm Hy. eapply sret_mono.
  - apply (sret_for never (fun k d => mat_of R_double d n (n + n) (fun i j => if ((i =? r) && (j <? k))%nat then diag_state (S r) i j else diag_state r i j)) (n + n) 0).
    + eapply mat_of_ext; [exact Hm|]. intros i j _ _. cases.
    + intros k d Hk Hd. eapply sret_mono; [apply (assign_at never R_double (divA D) d n (n + n) _ r k y (diag_state (S r) r k) Hd); [lia|lia|]|].
      * intros x Hx. rewrite Nat.eqb_refl, Nat.ltb_irrefl in Hx. cbn [andb] in Hx. apply ret_ok. cbn [rd].
        assert (N : v r <> 0) by (apply Hv, Hr). revert Hx. unfold diag_state. rewrite Nat.ltb_irrefl. replace (r <? S r)%nat with true by (symmetry; apply Nat.ltb_lt; lia).
        destruct (Nat.ltb_spec k n).
        -- destruct (Nat.eqb_spec r k); intros Hx.
           ++ apply (div_exact x y (v r) (v r) 1 _ Hx Hy N R_double_1). field. exact N.
           ++ apply (div_exact x y 0 (v r) 0 _ Hx Hy N R_double_0). field. exact N.
        -- destruct (Nat.eqb_spec r (k - n)); intros Hx.
           ++ replace (/ v r) with (1 / v r) by (field; exact N). apply div_rnd; auto. replace (1 / v r) with (/ v r) by (field; exact N). apply Ho, Hr.
           ++ apply (div_exact x y 0 (v r) 0 _ Hx Hy N R_double_0). field. exact N.
      * intros d' Hd'. eapply mat_of_ext; [exact Hd'|]. intros i j _ _. cbn beta. cases.
  - intros d Hd. eapply mat_of_ext; [exact Hd|]. intros i j Hi Hj. cbn beta. unfold diag_state. cases.
Qed.
Lemma diag_clear r m : (r < n)%nat -> state (S r) m -> sret never (rref_clear D m r r) (fun d => state (S r) d).
Proof.
  intros Hr Hm. unfold rref_clear. destruct (mat_of_dims _ m _ _ _ Hm) as (-> & _). apply (sret_for never (fun _ d => state (S r) d) n 0); [exact Hm|]. intros i d Hi Hd.
  destruct (Nat.eqb_spec i r) as [->|Ne]; [apply sret_done; exact Hd|].
  eapply sret_eval; [apply (entry_of never R_double d n (n + n) _ i r Hd); lia|]. intros z Hz. cbn beta in Hz.
  assert (Z : diag_state (S r) i r = 0) by (unfold diag_state; cases). rewrite Z in Hz.
  destruct (mat_of_dims _ d _ _ _ Hd) as (_ & -> & _). apply (sret_for never (fun _ d => state (S r) d) (n + n) 0); [exact Hd|]. intros j t Hj Ht.
  eapply (sret_eval never t _ _ (fun p => R_double p 0)).
  - eapply ret_bind; [apply (entry_of never R_double t n (n + n) _ r j Ht); lia|]. intros a Ha. apply ret_ok. cbn beta in Ha. apply (mul_0 z a _ _ Hz Ha). ring.
  - intros p Hp. eapply sret_mono; [apply (assign_at never R_double (subA D) t n (n + n) _ i j p (diag_state (S r) i j) Ht); [lia|lia|]|].
    + intros x Hx. apply ret_ok. apply sub_0; auto.
    + intros t' Ht'. eapply mat_of_ext; [exact Ht'|]. intros i' j' _ _. cbn beta. cases.
Qed.
Lemma diag_rows k : forall r m, (r + k = n)%nat -> state r m -> sret never (rref_rows D k r r m) (fun d => state n d).
Proof.
  induction k as [|k IH]; intros r m Hk Hm; cbn [rref_rows]; [apply sret_done; assert (r = n) as -> by lia; exact Hm|].
  destruct (mat_of_dims _ m _ _ _ Hm) as (Dr & Dc & _). rewrite Dc. destruct (Nat.leb_spec (n + n) r); [lia|].
  unfold pivot_fuel. cbn [find_pivot].
  assert (Er : diag_state r r r = v r) by (unfold diag_state; cases).
  assert (P : ret never (entry m r r) (fun x => R_double x (v r))) by (rewrite <- Er; apply (entry_of never R_double m n (n + n) _ r r Hm); lia).
  eapply (sret_eval never m _ _ (fun o => o = Some (r, r))).
  { eapply ret_bind; [exact P|]. intros x Hx. eapply (ret_bind never) with (P := fun e => e = false); [|intros e ->; apply ret_ok; reflexivity].
    apply ret_ok. cbn [eqb double_ops]. destruct (SFeqb x (double_of_int 0)) eqn:E; auto. exfalso. apply (Hv r ltac:(lia)). apply (eqb_values x (double_of_int 0)); auto. apply R_double_0. }
  intros o ->. unfold swap_rows. rewrite Nat.eqb_refl. cbn [andthen done].
  eapply sret_eval; [exact P|]. intros y Hy. cbn beta in Hy. rewrite Dc.
  eapply sret_andthen; [apply (diag_divide r m y); auto; lia|]. intros d Hd. cbn beta in Hd.
  eapply sret_andthen; [apply diag_clear; [lia|exact Hd]|]. intros t Ht. replace (r + 1)%nat with (S r) by lia. apply IH; [lia|exact Ht].
Qed.
Lemma inverse_diagonal m : mat_of R_double m n n (fun i j => if (i =? j)%nat then v i else 0) ->
  exists z, inverse D m = Ok z /\ mat_of R_double z n n (fun i j => if (i =? j)%nat then rnd (/ v i) else 0).
Proof.
  intros Hm. apply ret_False. unfold inverse. destruct (mat_of_dims _ m _ _ _ Hm) as (Dr & Dc & _). rewrite Dr, Dc, Nat.eqb_refl. cbn [negb].
  eapply ret_bind; [exact (identityMatrix_ok D never R_double n 0 1 R_double_0 R_double_1)|]. intros id Hid. cbn beta in Hid.
  eapply ret_bind; [exact (augmentedMatrix_ok D never R_double m id n n n _ _ Hm Hid)|]. intros a Ha. cbn beta in Ha.
  eapply ret_bind.
  { apply ret_final. unfold inplace_rref. destruct (mat_of_dims _ a _ _ _ Ha) as (-> & _). apply diag_rows; [reflexivity|]. eapply mat_of_ext; [exact Ha|]. intros i j Hi Hj. unfold diag_state. cbn beta. cases. }
  intros t Ht. cbn beta in Ht. apply ret_final. eapply sret_mono; [apply (inverse_loop D never R_double n t id _ _ _ Ht Hid (dims_new D n n))|].
  - intros i j x y Hi Hj Hx Hy. apply ret_ok. apply (eqb_values _ _ _ _ Hx Hy). unfold diag_state. cases.
  - intros d Hd. eapply mat_of_ext; [exact Hd|]. intros i j Hi Hj. unfold diag_state. rewrite Nat.add_sub. cbn beta. cases.
Qed.
End Diagonal.
Lemma rnd_nearest d r : R_double d (rnd r) -> Rabs r < overflow_at -> rounded d r.
Proof. intros H O. destruct (R_double_bin d _ H) as (b & -> & F & E). apply rounded_finite; auto. Qed.
Theorem inverse_diagonal_rounded m n v : mat_of R_double m n n (fun i j => if (i =? j)%nat then v i else 0) ->
  (forall i, (i < n)%nat -> v i <> 0 /\ Rabs (/ v i) < overflow_at) ->
  exists z, inverse double_ops m = Ok z /\ mat_of rounded z n n (fun i j => if (i =? j)%nat then / v i else 0).
Proof.
  intros Hm Hv. destruct (inverse_diagonal n v (fun i Hi => proj1 (Hv i Hi)) (fun i Hi => proj2 (Hv i Hi)) m Hm) as (z & E & (Z1 & Z2 & Z3 & Hz)). exists z. split; [exact E|].
  split; [exact Z1|]. split; [exact Z2|]. split; [exact Z3|]. intros i j Hi Hj. destruct (Hz i j Hi Hj) as (x & Ex & Hx). exists x. split; [exact Ex|]. cbn beta in *.
  destruct (Nat.eqb_spec i j); apply rnd_nearest; auto; [apply Hv, Hi|rewrite rnd_zero; exact Hx|rewrite Rabs_R0; apply overflow_pos].
Qed.

(** *** The determinant of a triangular matrix *)
Lemma pow_low k : 0 < (1 - u) ^ k <= 1.
Proof. pose proof u_pos as U. induction k as [|k IH]; cbn [pow]; [lra|]. nra. Qed.
Lemma pow_pair k : 1 - (1 - u) ^ k <= (1 + u) ^ k - 1.
Proof.
  pose proof u_pos as U. assert (A : 1 + INR k * u <= (1 + u) ^ k).
  { induction k as [|k IH]; [cbn; lra|]. rewrite S_INR. cbn [pow]. pose proof (pos_INR k). assert (0 <= INR k * u * u) by (apply Rmult_le_pos; nra). nra. }
  assert (B : 1 - INR k * u <= (1 - u) ^ k).
  { clear A. induction k as [|k IH]; [cbn; lra|]. rewrite S_INR. cbn [pow]. pose proof (pos_INR k). assert (0 <= INR k * u * u) by (apply Rmult_le_pos; nra). nra. }
  lra.
Qed.
Lemma rnd_normal r : powerRZ 2 (-1022) <= Rabs r -> exists e, Rabs e <= u /\ rnd r = r * (1 + e).
Proof.
  intros H. destruct (relative_error_N_FLT_ex radix2 (-1074) 53 Hprec (fun z => negb (Z.even z)) r) as (e & He & E).
  - change (-1074 + 53 - 1)%Z with (-1022)%Z. rewrite (bpow_powerRZ radix2). exact H.
  - exists e. split; [|exact E]. eapply Rle_trans; [exact He|]. unfold unit_roundoff. change (bpow radix2 (- (53) + 1)) with (/ 4503599627370496). lra.
Qed.
Section Triangle.
Context (n : nat) (v : nat -> R).
Local Notation p k := (Rprod k v).
Hypothesis Hp : forall k, (1 <= k <= n)%nat -> powerRZ 2 (-1022) <= (1 - u) ^ (n - 1) * Rabs (p k) /\ (1 + u) ^ (n - 1) * Rabs (p k) <= largest.
(** d is a product of the first k values, each product rounded *)
Definition product_of (k : nat) (d : spec_float) : Prop := exists t, R_double d (p k * t) /\ (1 - u) ^ (k - 1) <= t <= (1 + u) ^ (k - 1).
Lemma product_step k d x : (k < n)%nat -> product_of k d -> R_double x (v k) -> product_of (S k) (SFmul 53 1024 d x).
Proof.
  intros Hk (t & Hd & Ht) Hx. pose proof u_pos as U. unfold product_of. replace (S k - 1)%nat with k by lia.
  destruct k as [|k].
  { cbn [pow Nat.sub Rprod] in *. exists 1. assert (t = 1) as -> by lra. split; [|cbn [pow]; lra]. cbn [Rprod].
    assert (E : 1 * 1 * v 0%nat = v 0%nat) by ring. replace (1 * v 0%nat * 1) with (rnd (1 * 1 * v 0%nat)) by (rewrite E, (R_double_rnd x _ Hx); ring).
    apply mul_rnd; auto. rewrite E. apply (R_double_small x), Hx. }
  set (m := S k) in *. assert (Em : (m - 1)%nat = k) by lia. rewrite Em in Ht.
  assert (Pt : 0 < t) by (destruct Ht; pose proof (pow_low k); lra).
  assert (E : p m * t * v m = p (S m) * t) by (cbn [Rprod]; ring). destruct (Hp (S m) ltac:(lia)) as [Lo Hi]. pose proof (Rabs_pos (p (S m))) as Ap.
  assert (Mono1 : (1 - u) ^ (n - 1) <= (1 - u) ^ k).
  { replace (n - 1)%nat with (k + (n - 1 - k))%nat by lia. rewrite pow_add. pose proof (pow_low k). pose proof (pow_low (n - 1 - k)). nra. }
  assert (Mono2 : (1 + u) ^ k <= (1 + u) ^ (n - 1)) by (apply Rle_pow; [lra|lia]).
  assert (B : Rabs (p m * t * v m) = t * Rabs (p (S m))) by (rewrite E, Rabs_mult, (Rabs_pos_eq t) by lra; ring).
  destruct (rnd_normal (p m * t * v m)) as (e & He & Ee); [rewrite B; eapply Rle_trans; [exact Lo|]; apply Rmult_le_compat_r; lra|].
  exists (t * (1 + e)). split.
  - rewrite <- Rmult_assoc, <- E, <- Ee. apply mul_rnd; auto. rewrite B. eapply Rle_lt_trans; [|apply largest_below]. eapply Rle_trans; [|exact Hi]. apply Rmult_le_compat_r; lra.
  - apply Rabs_le_inv in He. subst m. cbn [pow]. pose proof (pow_low k). pose proof (pow_ge_1 k). split; nra.
Qed.
Definition product_close (d : spec_float) : Prop := double d /\ finite d /\ Rabs (dR d - p n) <= ((1 + u) ^ (n - 1) - 1) * Rabs (p n).
Lemma product_of_close d : product_of n d -> product_close d.
Proof.
  intros (t & (D & F & E) & Ht). split; [exact D|]. split; [exact F|]. rewrite E. replace (p n * t - p n) with ((t - 1) * p n) by ring. rewrite Rabs_mult.
  apply Rmult_le_compat_r; [apply Rabs_pos|]. pose proof (pow_pair (n - 1)). apply Rabs_le. lra.
Qed.
Lemma product_nz k : (k < n)%nat -> v k <> 0.
Proof.
  intros Hk Z. destruct (Hp (S k) ltac:(lia)) as [L _]. cbn [Rprod] in L. rewrite Z, Rmult_0_r, Rabs_R0, Rmult_0_r in L.
  pose proof (bpow_gt_0 radix2 (-1022)) as P. rewrite (bpow_powerRZ radix2) in P. change (IZR radix2) with 2 in P. lra.
Qed.
Lemma product_1 x : n = 1%nat -> R_double x (v 0%nat) -> product_of n x.
Proof. intros E H. exists 1. rewrite E. cbn [Rprod Nat.sub pow]. split; [|lra]. replace (1 * v 0%nat * 1) with (v 0%nat) by ring. exact H. Qed.
Lemma product_2 x w a b : n = 2%nat -> R_double x (v 0%nat) -> R_double w (v 1%nat) -> R_double a 0 \/ R_double b 0 -> R_double a (dR a) -> R_double b (dR b) ->
  ret never (s <- mul double_ops x w ;; q <- mul double_ops a b ;; sub double_ops s q) (product_of n).
Proof.
  intros E Hx Hw Hz Ha Hb. apply ret_ok. assert (Z : R_double (SFmul 53 1024 a b) 0).
  { destruct Hz as [Hz|Hz]; [apply (mul_0 a b 0 (dR b)); auto; ring|apply (mul_0 a b (dR a) 0); auto; ring]. }
  assert (P1 : product_of 1 x) by (exists 1; cbn [Rprod Nat.sub pow]; split; [replace (1 * v 0%nat * 1) with (v 0%nat) by ring; exact Hx|lra]).
  destruct (product_step 1 x w ltac:(lia) P1 Hw) as (t & Ht & B). rewrite E. exists t. split; [|exact B]. apply sub_0; auto.
Qed.
Lemma product_last d : product_of n d -> ret never (div double_ops d (of_int double_ops 1)) (product_of n).
Proof.
  intros (t & H & B). apply ret_ok. exists t. split; [|exact B]. apply (div_exact d _ (p n * t) 1 _ d H R_double_1); [lra|exact H|field].
Qed.
Lemma R_double_self x a : R_double x a -> R_double x (dR x).
Proof. intros (D & F & _). split; auto. Qed.
Lemma product_0 : product_of 0 (of_int double_ops 1).
Proof. exists 1. cbn [Rprod Nat.sub pow]. split; [rewrite Rmult_1_l; apply R_double_1|lra]. Qed.
Lemma nonzero_eqb x a : R_double x a -> a <> 0 -> ret never (eqb double_ops x (of_int double_ops 0)) (fun e => e = false).
Proof.
  intros Hx N. apply ret_ok. cbn [eqb double_ops]. destruct (SFeqb x (double_of_int 0)) eqn:E; auto. exfalso. apply N. apply (eqb_values x (double_of_int 0)); auto. apply R_double_0.
Qed.
Lemma zero_div x y a b : R_double x a -> a = 0 -> R_double y b -> b <> 0 -> ret never (div double_ops x y) (fun r => exists c, R_double r c /\ c = 0).
Proof. intros Hx -> Hy N. apply ret_ok. exists 0. split; auto. apply (div_exact x y 0 b 0 _ Hx Hy N R_double_0). field. exact N. Qed.

Lemma determinant_upper_close m g : mat_of R_double m n n g -> upper (fun a => a = 0) n g -> (forall i, (i < n)%nat -> g i i = v i) ->
  exists d, determinant double_ops m = Ok d /\ product_close d.
Proof.
  intros Hm [Ht Hd] Hg. apply ret_False. eapply ret_mono; [|exact product_of_close].
  apply (determinant_triangular double_ops never R_double (fun a => a = 0) n g product_of (product_of n)); auto.
  - exact nonzero_eqb.
  - intros x y a b Hx -> Hy. apply ret_ok. exists 0. split; auto. apply (mul_0 x y 0 b Hx Hy). ring.
  - exact zero_div.
  - intros x y a b Hx Hy ->. apply ret_ok, sub_0; auto.
  - exact product_0.
  - intros k d x Hk Hd' Hx. apply ret_ok. apply product_step; auto. rewrite <- Hg; auto.
  - exact product_last.
  - intros E x00 x01 x10 x11 H00 H01 H10 H11. rewrite Hg in H00, H11 by lia. rewrite (Ht 1%nat 0%nat) in H10 by lia. apply product_2; auto; eapply R_double_self; eauto.
  - intros E x Hx. apply product_1; auto. rewrite <- Hg by lia. exact Hx.
Qed.
Lemma determinant_lower_close m g : mat_of R_double m n n g -> lower (fun a => a = 0) n g -> (forall i, (i < n)%nat -> g i i = v i) ->
  exists d, determinant double_ops m = Ok d /\ product_close d.
Proof.
  intros Hm [Ht Hd] Hg. apply ret_False. eapply ret_mono; [|exact product_of_close].
  apply (determinant_lower double_ops never R_double (fun a => a = 0) n g product_of (product_of n)); auto.
  - exact nonzero_eqb.
  - intros x y a b Hx Hy ->. apply ret_ok. exists 0. split; auto. apply (mul_0 x y a 0 Hx Hy). ring.
  - exact zero_div.
  - intros x y a b Hx Hy ->. apply ret_ok, sub_0; auto.
  - intros x y z a b _ _ _ _. cbn. apply ret_ok. intros w _. apply ret_ok. exact I.
  - exact product_0.
  - intros k d x Hk Hd' Hx. apply ret_ok. apply product_step; auto. rewrite <- Hg; auto.
  - exact product_last.
  - intros E x00 x01 x10 x11 H00 H01 H10 H11. rewrite Hg in H00, H11 by lia. assert (Z : g 0%nat 1%nat = 0) by (apply (Ht 1%nat 0%nat); lia). rewrite Z in H01. apply product_2; auto; eapply R_double_self; eauto.
  - intros E x Hx. apply product_1; auto. rewrite <- Hg by lia. exact Hx.
Qed.
End Triangle.
Theorem determinant_triangular_close m n g : mat_of R_double m n n g -> upper (fun a => a = 0) n g \/ lower (fun a => a = 0) n g -> let p k := Rprod k (fun i => g i i) in
  (forall k, (1 <= k <= n)%nat -> powerRZ 2 (-1022) <= (1 - u) ^ (n - 1) * Rabs (p k) /\ (1 + u) ^ (n - 1) * Rabs (p k) <= largest) ->
  exists d, determinant double_ops m = Ok d /\ double d /\ finite d /\ Rabs (dR d - p n) <= ((1 + u) ^ (n - 1) - 1) * Rabs (p n).
Proof.
  intros Hm Ht p Hp. destruct Ht as [Ht|Ht]; [apply (determinant_upper_close n (fun i => g i i) Hp m g Hm Ht)|apply (determinant_lower_close n (fun i => g i i) Hp m g Hm Ht)]; auto.
Qed.
Theorem determinant_2_close m g : mat_of R_double m 2 2 g -> exists d, determinant double_ops m = Ok d /\
  let a := g 0%nat 0%nat in let b := g 0%nat 1%nat in let c := g 1%nat 0%nat in let d' := g 1%nat 1%nat in
  minor_close d (a * d' - b * c, Rabs (a * d') + Rabs (b * c)).
Proof.
  intros Hm. cbv zeta. assert (E : determinant double_ops m = det2 double_ops m) by (destruct (mat_of_dims _ m _ _ _ Hm) as (Dr & Dc & _); unfold determinant; rewrite Dr, Dc; reflexivity). rewrite E. clear E.
  destruct Hm as (_ & _ & _ & H). destruct (H 0 0)%nat as (x & Ex & Hx); [lia..|]. destruct (H 0 1)%nat as (y & Ey & Hy); [lia..|].
  destruct (H 1 0)%nat as (z & Ez & Hz); [lia..|]. destruct (H 1 1)%nat as (w & Ew & Hw); [lia..|].
  unfold det2, read. cbn [Nat.mul Nat.add] in *. rewrite Ex, Ey, Ez, Ew. cbn [bind mul sub double_ops]. eexists. split; [reflexivity|].
  destruct (R_double_bin x _ Hx) as (a & -> & Fa & <-). destruct (R_double_bin y _ Hy) as (b & -> & Fb & <-).
  destruct (R_double_bin z _ Hz) as (c & -> & Fc & <-). destruct (R_double_bin w _ Hw) as (d & -> & Fd & <-).
  rewrite !mul_equiv, dsub_equiv. split; [apply double_bin|]. split.
  - intros F. apply finite_equiv in F. rewrite dR_bin. apply (fminor_error _ _ _ _ F).
  - intros B. apply finite_equiv. apply fminor_small; auto.
Qed.
