(** Bounds on the rounds of powers, of the greatest common divisor and of reduction. *)
From Coq Require Import ZifyBool.
From Verif Require Import Base IntModel IntSpec IntBasics IntAddSub IntMul IntDiv IntMod IntSize FracModel FracProofs.
From Verif Require Import CostModel CostProofs IntCostModel IntCost IntCost2 IntCost3 IntCost4 IntCost5 FracCostModel FracCostSpec FracCost.
Local Open Scope list_scope.
Local Open Scope Z_scope.

Lemma len_pos x : wf x -> 1 <= len (bins x).
Proof. intros W. pose proof (size_pos x W). unfold size, len in *. lia. Qed.
Lemma len_le x n : wf x -> trimmed (bins x) -> (1 <= n)%nat -> aval x < pw n -> len (bins x) <= Z.of_nat n.
Proof. intros W T N V. pose proof (size_le_of_aval x n W T N V). unfold len, size in *. lia. Qed.

(** *** The greatest common divisor *)
(** What a bin of a quotient costs a remainder, and what else a round of the loop costs. *)
Definition bin (n : Z) : Z := one_bin n + n * (n + 1) + 9 * n + 6.
Definition turn (n : Z) : Z := 2 * n * n + 72 * n + 190.
Lemma one_bin_mono a b : 0 <= a <= b -> one_bin a <= one_bin b.
Proof. intros H. unfold one_bin. nia. Qed.
Lemma one_bin_pos a : 0 <= a -> 0 <= one_bin a.
Proof. intros H. unfold one_bin. nia. Qed.
Lemma remainder_mono a b n : 1 <= b <= a -> a <= n -> remainder_fine a b <= (a - b + 1) * bin n + (turn n - n - 1).
Proof.
  intros H1 H2. unfold remainder_fine. rewrite Z.max_r by lia. rewrite Z.max_l by lia.
  assert (one_bin b + b * (a + 1) + 9 * b + 6 <= bin n).
  { pose proof (one_bin_mono b n ltac:(lia)). unfold bin. nia. }
  assert ((a - b + 1) * (one_bin b + b * (a + 1) + 9 * b + 6) <= (a - b + 1) * bin n) by (apply Z.mul_le_mono_nonneg_l; lia).
  unfold turn. nia.
Qed.
Lemma trimmed_len a b : wf a -> wf b -> trimmed (bins b) -> aval b <> 0 -> aval b <= aval a -> len (bins b) <= len (bins a).
Proof.
  intros Wa Wb Tb Nb V. destruct (Z_le_gt_dec (len (bins b)) (len (bins a))) as [L|L]; [exact L|exfalso].
  pose proof (size_aval_lower b Wb Tb Nb). pose proof (aval_lt_pw a Wa). unfold len in L. unfold size in *. pose proof (pw_le (length (bins a)) (length (bins b) - 1) ltac:(lia)). lia.
Qed.
Lemma gcd_start n X f a b : 1 <= n -> 0 <= X -> okrep a -> len (bins a) <= n -> okrep b -> 0 <= val b -> len (bins b) <= n ->
  (val b <> 0 -> spends (r <-- op_mod_c a b ;;; gcd_loop_c f b r) (X - 1) (fun g => okrep g /\ len (bins g) <= n)) ->
  spends (gcd_loop_c (S f) a b) (X + n) (fun g => okrep g /\ len (bins g) <= n).
Proof.
  intros N PX Ha La Hb Vb Lb G. cbn [gcd_loop_c]. rewrite Z.add_comm. eapply sp_bind with (Q1 := fun z => z = (val b =? 0)); [|lia|].
  - destruct (equals_sp b 0 n N Lb) as [H _]; split; [exact H|]; rewrite equals_e, equals_int32_0 by auto; rewrite (val_nonneg_abs b) by auto; congruence.
  - intros z ->. destruct (Z.eqb_spec (val b) 0) as [E|E].
    + apply (sp_weak _ 0 _ (fun g => okrep g /\ len (bins g) <= n)); [apply sp_ok; auto|lia|auto].
    + replace X with (1 + (X - 1)) by lia. apply sp_lap. auto.
Qed.
Lemma gcd_loop_sp n : forall k f a b, okrep a -> okrep b -> 0 <= val b <= val a -> len (bins a) <= n -> len (bins b) <= n ->
  (val b < fib (S (S k)) \/ val b < val a < fib (S (S (S k)))) ->
  spends (gcd_loop_c f a b) ((len (bins a) + Z.of_nat k) * bin n + Z.of_nat k * turn n + n) (fun g => okrep g /\ len (bins g) <= n).
Proof.
  assert (PW : 0 <= n -> 0 <= bin n /\ 0 <= turn n) by (intros H; unfold bin, turn; pose proof (one_bin_pos n H); nia).
  intros k f a b Ha Hb Hv La Lb Hf. pose proof (len_pos a (okrep_wf _ Ha)) as Pa. destruct (PW ltac:(lia)) as [PW1 PW2]. clear PW Pa.
  revert k a b Ha Hb Hv La Lb Hf. induction f as [|f IH]; intros k a b Ha Hb Hv La Lb Hf; pose proof (len_pos a (okrep_wf _ Ha)) as Pa.
  - apply (sp_weak _ 0 _ (fun _ => False)); [split; [cbn; lia|cbn; discriminate]|nia|tauto].
  - apply gcd_start; auto; try lia. intros E. destruct k as [|k]; [exfalso; cbn [fib] in Hf; lia|].
    pose proof (val_nonneg_abs a (okrep_wf _ Ha) ltac:(lia)) as Va. pose proof (val_nonneg_abs b (okrep_wf _ Hb) ltac:(lia)) as Vb.
    assert (Tb : trimmed (bins b)) by (apply Hb; lia). assert (Ta : trimmed (bins a)) by (apply Ha; lia).
    pose proof (trimmed_len a b ltac:(auto) ltac:(auto) Tb ltac:(lia) ltac:(lia)) as Lab. pose proof (len_pos b (okrep_wf _ Hb)) as Pb.
    apply (sp_weak _ (remainder_fine (len (bins a)) (len (bins b)) + ((len (bins b) + Z.of_nat k) * bin n + Z.of_nat k * turn n + n)) _ (fun g => okrep g /\ len (bins g) <= n)); [| |auto].
    2: { pose proof (remainder_mono (len (bins a)) (len (bins b)) n ltac:(lia) ltac:(lia)). lia. }
    eapply sp_bind with (Q1 := fun r => canonical r /\ val r = val a mod val b).
    + split; [apply op_mod_fine; auto|]. rewrite op_mod_e. intros r Er.
      destruct (div_safe_dec (Z.abs (val a)) (Z.abs (val b))) as [D|D]; [lia| |].
      * destruct (op_mod_ok a b) as (r' & E' & C & V); auto. rewrite Er in E'. injection E' as <-. auto.
      * rewrite (op_mod_unsafe a b) in Er by auto. discriminate.
    + nia.
    + intros r [Cr Vr]. pose proof (Z.mod_pos_bound (val a) (val b) ltac:(lia)) as Mo. apply IH; auto; try lia.
      * unfold len in *. pose proof (len_le r (length (bins b)) ltac:(auto) ltac:(auto) ltac:(lia)) as H. unfold len in H. eapply Z.le_trans; [apply H|exact Lb].
        pose proof (aval_lt_pw b (okrep_wf _ Hb)) as H1. unfold size in H1. rewrite (val_nonneg_abs r) in * by (auto; lia). lia.
      * destruct (Z_lt_le_dec (val b) (fib (S (S (S k))))) as [L|L]; [right; lia|]. left. destruct Hf as [Hf|Hf]; [lia|].
        rewrite (fib_SS (S (S k))) in Hf. rewrite Vr. assert (val a mod val b <= val a - val b); [|lia].
        rewrite Z.mod_eq by lia. assert (1 <= val a / val b) by (apply Z.div_le_lower_bound; lia). nia.
Qed.
Lemma nochecks_gcd_sp a b n : okrep a -> okrep b -> 0 <= val b <= val a -> len (bins a) <= n -> len (bins b) <= n ->
  spends (nochecks_gcd_c a b) (2 * n + ((n + 45 * n) * bin n + 45 * n * turn n + n)) (fun g => okrep g /\ len (bins g) <= n).
Proof.
  intros Ha Hb Hv La Lb. pose proof (len_pos a (okrep_wf _ Ha)) as Pa. assert (PW : 0 <= bin n /\ 0 <= turn n) by (unfold bin, turn; pose proof (one_bin_pos n ltac:(lia)); nia).
  replace (2 * n + ((n + 45 * n) * bin n + 45 * n * turn n + n)) with (n + (n + ((n + 45 * n) * bin n + 45 * n * turn n + n))) by ring.
  unfold nochecks_gcd_c. eapply sp_bind; [apply copy_sp, La|nia|intros a' <-]. eapply sp_bind; [apply copy_sp, Lb|nia|intros b' <-].
  eapply sp_weak; [apply (gcd_loop_sp n (5 * Z.to_nat (9 * n))); auto| |auto].
  - left. pose proof (fib_tens (Z.to_nat (9 * n))) as F. replace (5 * Z.to_nat (9 * n) + 2)%nat with (S (S (5 * Z.to_nat (9 * n)))) in F by lia.
    eapply Z.lt_le_trans; [|exact F]. pose proof (bins_val_bound (bins b) (proj2 (okrep_wf _ Hb))) as U. fold (aval b) in U.
    rewrite (val_nonneg_abs b) in U by (auto; lia). unfold pw in U. rewrite Z2Nat.id by lia.
    eapply Z.lt_le_trans; [apply U|]. change B with (10 ^ 9). rewrite <- Z.pow_mul_r by lia. apply Z.pow_le_mono_r; [lia|]. unfold len in *. lia.
  - rewrite Nat2Z.inj_mul, Z2Nat.id by lia. nia.
Qed.
Lemma divisor_eq n : (4 * n + (4 * n + (2 * n + (2 * n + ((n + 45 * n) * bin n + 45 * n * turn n + n))))) = divisor n.
Proof. unfold divisor, bin, turn, one_bin. ring. Qed.
Lemma GCD_sp x y n : okrep x -> okrep y -> len (bins x) <= n -> len (bins y) <= n ->
  spends (GCD_c x y) (divisor n) (fun g => okrep g /\ len (bins g) <= n).
Proof.
  intros Hx Hy Lx Ly. pose proof (len_pos x (okrep_wf _ Hx)) as Px. assert (PW : 0 <= bin n /\ 0 <= turn n) by (unfold bin, turn; pose proof (one_bin_pos n ltac:(lia)); nia).
  rewrite <- divisor_eq. unfold GCD_c.
  assert (AB : forall z, okrep z -> len (bins z) <= n -> spends (abs_c z) (4 * n) (fun r => okrep r /\ val r = Z.abs (val z) /\ len (bins r) <= n)).
  { intros z Hz Lz. destruct (abs_sp z n ltac:(lia) Lz) as [H1 H2]. split; [exact H1|]. intros r Er. specialize (H2 r Er). cbv beta in H2.
    rewrite abs_e in Er. destruct (abs_Int_okrep z Hz) as (r' & E & O & V & _). rewrite Er in E. injection E as <-. rewrite H2. auto. }
  eapply sp_bind; [apply AB; auto|nia|intros a (Oa & Va & La)]. eapply sp_bind; [apply AB; auto|nia|intros b (Ob & Vb & Lb)].
  eapply sp_bind with (Q1 := fun l => l = (val a <? val b)); [|nia|].
  { destruct (lt_sp a b n ltac:(lia) La Lb) as [H _]. split; [exact H|]. rewrite lt_e, op_lt_spec by auto. congruence. }
  intros l ->. destruct (Z.ltb_spec (val a) (val b)); apply nochecks_gcd_sp; auto; lia.
Qed.

(** *** Reduction *)
Lemma div_assign_zero x c : wf c -> aval c = 0 -> spends (div_assign_c x (Some c)) (2 * len (bins c)) (fun _ => False).
Proof.
  intros W E. assert (EQ : fst (equals_c c 0) = Ok true) by (rewrite equals_e, equals_int32_0 by auto; rewrite E; reflexivity).
  pose proof (equals_sp c 0 (len (bins c)) (len_pos c W) ltac:(lia)) as [H _].
  unfold div_assign_c, copy_c, divide_c. cbn [rd cbind fst snd]. destruct (equals_c c 0) as [m k]. cbn [fst snd] in *. subst m. cbn [cbind free fst snd].
  split; [cbn [snd]; lia|]. cbn [fst]. discriminate.
Qed.
Lemma div_assign_n x c n : wf x -> okrep c -> len (bins x) <= n -> len (bins c) <= n ->
  spends (div_assign_c x (Some c)) (n * one_bin n + n * (2 * n + 8) + 5 * n) (fun r => canonical r /\ len (bins r) <= n).
Proof.
  intros Wx Oc Lx Lc. pose proof (len_pos x Wx) as Px. pose proof (len_pos c (okrep_wf _ Oc)) as Pc. pose proof (one_bin_pos n ltac:(lia)) as P.
  destruct (Z.eq_dec (aval c) 0) as [E|E].
  { eapply sp_weak; [apply div_assign_zero; auto|nia|intros ? []]. }
  eapply sp_weak; [apply (div_assign_fine x (Some c)); cbn [rd]; auto; apply Oc, E| |].
  - cbn [rd]. set (u := len (bins x)) in *. set (m := len (bins c)) in *. pose proof (one_bin_mono m n ltac:(lia)) as Mo. pose proof (one_bin_pos m ltac:(lia)) as P1.
    assert (searched u m * one_bin m <= n * one_bin n) by (unfold searched; apply Z.mul_le_mono_nonneg; lia). nia.
  - cbn [rd]. intros r [C L]. split; [exact C|lia].
Qed.
Lemma reduction_eq n : n + (n + 0) + (divisor n + ((n * one_bin n + n * (2 * n + 8) + 5 * n) + ((n * one_bin n + n * (2 * n + 8) + 5 * n) + 0))) = reduction n.
Proof. unfold reduction, divisor, one_bin. ring. Qed.
Lemma divisor_pos n : 0 <= n -> 0 <= divisor n. Proof. intros H. unfold divisor. pose proof (Z.pow_nonneg n 3 H). pose proof (Z.pow_nonneg n 2 H). lia. Qed.
Lemma negate_okrep x n : okrep x -> len (bins x) <= n -> spends (negate_c x) n (fun r => okrep r /\ len (bins r) <= n).
Proof.
  intros O L. pose proof (len_pos x (okrep_wf _ O)) as P. eapply sp_weak; [apply (negate_sp x n); auto; lia|lia|]. intros r [Br _].
  destruct O as [W T]. split; [|rewrite Br; exact L]. split; [unfold wf in *; rewrite Br; exact W|]. unfold aval. rewrite Br. exact T.
Qed.
Lemma normalize_sp f n : okrep (top f) -> okrep (bot f) -> len (bins (top f)) <= n -> len (bins (bot f)) <= n ->
  spends (normalize_c f) (reduction n) (fun g => len (bins (top g)) <= n /\ len (bins (bot g)) <= n).
Proof.
  intros Ot Ob Lt Lb. pose proof (len_pos _ (okrep_wf _ Ot)) as P. assert (DV : 0 <= divisor n) by (apply divisor_pos; lia). pose proof (one_bin_pos n ltac:(lia)) as P1.
  rewrite <- reduction_eq. unfold normalize_c.
  eapply sp_bind with (Q1 := fun g => okrep (top g) /\ okrep (bot g) /\ len (bins (top g)) <= n /\ len (bins (bot g)) <= n); [|nia|].
  - destruct (is_negative (bot f)).
    + eapply sp_bind; [apply negate_okrep; auto|lia|intros b [B1 B2]]. eapply sp_bind; [apply negate_okrep; auto|lia|intros t [T1 T2]]. apply sp_ok. cbn [top bot]. auto.
    + apply (sp_weak _ 0 _ (eq f)); [apply sp_ok; reflexivity|lia|]. intros g <-. auto.
  - intros g (Og & Oh & Lg & Lh). eapply sp_bind; [apply GCD_sp; auto|nia|intros c [Oc Lc]].
    eapply sp_bind; [apply div_assign_n; auto|nia|intros t [_ T]]. eapply sp_bind; [apply div_assign_n; auto|nia|intros b [_ Bb]]. apply sp_ok. cbn [top bot]. auto.
Qed.
Lemma Frac_make_sp t b n : okrep t -> okrep b -> len (bins t) <= n -> len (bins b) <= n -> spends (Frac_make_c t b) (3 * n + reduction n) (fun _ => True).
Proof.
  intros Ot Ob Lt Lb. pose proof (len_pos _ (okrep_wf _ Ot)) as P.
  assert (R : 0 <= reduction n) by (rewrite <- reduction_eq; pose proof (divisor_pos n ltac:(lia)); pose proof (one_bin_pos n ltac:(lia)); nia).
  replace (3 * n + reduction n) with (n + (n + (n + reduction n))) by ring. unfold Frac_make_c.
  eapply sp_bind; [apply copy_sp, Lt|lia|intros t' <-]. eapply sp_bind; [apply copy_sp, Lb|lia|intros b' <-].
  eapply sp_bind; [apply (equals_sp b 0 n); auto; lia|lia|intros z _]. destruct z.
  - apply (sp_weak _ 0 _ (fun _ => True)); [apply sp_free; auto|lia|auto].
  - eapply sp_weak; [apply (normalize_sp _ n); cbn [top bot]; auto|lia|auto].
Qed.

(** *** Products and powers *)
Lemma product_len x y r : wf x -> wf y -> trimmed (bins r) -> wf r -> val r = val x * val y -> len (bins r) <= len (bins x) + len (bins y).
Proof.
  intros Wx Wy Tr Wr V. pose proof (size_pos x Wx) as Sx. pose proof (size_pos y Wy) as Sy.
  assert (aval r < pw (size x + size y)).
  { rewrite <- (abs_val r Wr), V, Z.abs_mul, !abs_val by auto. rewrite pw_add. pose proof (aval_lt_pw x Wx). pose proof (aval_lt_pw y Wy). pose proof (aval_nonneg x Wx). pose proof (aval_nonneg y Wy). nia. }
  pose proof (len_le r (size x + size y) Wr Tr ltac:(lia) H) as L. unfold len, size in *. lia.
Qed.
Lemma mul_sp x y : canonical x -> canonical y -> let n := Z.max (len (bins x)) (len (bins y)) in let m := Z.min (len (bins x)) (len (bins y)) in
  spends (op_mul_c x y) (m * (n * n + 8 * n + m + 6) + (n + m + 2)) (fun r => canonical r /\ val r = val x * val y /\ len (bins r) <= len (bins x) + len (bins y)).
Proof.
  intros Cx Cy n m. split; [apply op_mul_sp; auto|]. intros r Er. rewrite op_mul_e in Er.
  destruct (op_mul_ok x y ltac:(auto) ltac:(auto) ltac:(auto) ltac:(auto)) as (r' & E & C & V). rewrite Er in E. injection E as <-. split; [exact C|]. split; [exact V|].
  apply product_len; auto.
Qed.
Lemma mul_bound_mono u v n m : 0 <= u <= n -> 0 <= v <= n -> m = n ->
  Z.min u v * (Z.max u v * Z.max u v + 8 * Z.max u v + Z.min u v + 6) + (Z.max u v + Z.min u v + 2) <= product n.
Proof.
  intros Hu Hv _. set (a := Z.min u v). set (b := Z.max u v). assert (0 <= a <= n) by (unfold a; lia). assert (0 <= b <= n) by (unfold b; lia).
  unfold product. assert (b * b <= n * n) by nia. assert (a * (b * b + 8 * b + a + 6) <= n * (n * n + 8 * n + n + 6)) by (apply Z.mul_le_mono_nonneg; nia).
  replace (n ^ 3) with (n * n * n) by ring. replace (n ^ 2) with (n * n) by ring. lia.
Qed.
Lemma mul_n x y n : canonical x -> canonical y -> len (bins x) <= n -> len (bins y) <= n ->
  spends (op_mul_c x y) (product n) (fun r => canonical r /\ val r = val x * val y /\ len (bins r) <= 2 * n).
Proof.
  intros Cx Cy Lx Ly. pose proof (len_nonneg (bins x)). pose proof (len_nonneg (bins y)).
  eapply sp_weak; [apply mul_sp; auto|apply (mul_bound_mono _ _ n n); lia|]. intros r (C & V & L). splits; auto. lia.
Qed.
Lemma dbi_sp xs : forall y r acc, spends (dbi_loop_c xs y r acc) (len xs) (fun _ => True).
Proof.
  induction xs as [|x xs IH]; intros; cbn [dbi_loop_c]; [apply sp_free; auto|]. rewrite len_cons. replace (1 + len xs) with (1 + (0 + (0 + (0 + len xs)))) by lia. pose proof (len_nonneg xs).
  replace (len xs + 1) with (1 + (0 + (0 + (0 + len xs)))) by lia.
  apply sp_lap. repeat (eapply sp_bind with (Q1 := fun _ => True); [apply sp_free; auto|lia|intros ? _]). apply IH.
Qed.
Lemma half_sp y : spends (divide_by_int_c y 2 false) (len (bins y)) (fun _ => True).
Proof.
  unfold divide_by_int_c. cbn [Z.eqb]. apply (sp_weak _ (len (bins y) + 0) _ (fun _ => True)); [eapply sp_bind with (Q1 := fun _ => True)|lia|auto]; [|lia|].
  - eapply sp_weak; [apply dbi_sp|unfold len; rewrite rev_length; lia|auto].
  - intros l _. apply sp_free. auto.
Qed.
Definition levels (e : Z) : Z := 2 * Z.log2 e + (if Z.odd e then 2 else 1).
Definition work (s : Z) : Z := s ^ 3 + 5 * s ^ 2 + 15 * s.
Lemma work_mono a b : 0 <= a <= b -> work a <= work b.
Proof. intros H. unfold work. replace (a ^ 3) with (a * a * a) by ring. replace (b ^ 3) with (b * b * b) by ring. replace (a ^ 2) with (a * a) by ring. replace (b ^ 2) with (b * b) by ring. assert (a * a <= b * b) by nia. assert (a * a * a <= b * b * b) by (apply Z.mul_le_mono_nonneg; nia). lia. Qed.
Lemma work_pos a : 0 <= a -> 0 <= work a.
Proof. intros H. pose proof (work_mono 0 a ltac:(lia)) as W. exact W. Qed.
(** x^e from x^(e-1), with n bins in x *)
Lemma work_odd n e : 1 <= n -> 1 <= e -> let s := Z.max 1 ((e - 1) * n) in
  work ((e - 1) * n) + (Z.min n s * (Z.max n s * Z.max n s + 8 * Z.max n s + Z.min n s + 6) + (Z.max n s + Z.min n s + 2)) <= work (e * n).
Proof.
  intros N E s. destruct (Z.eq_dec e 1) as [->|E1].
  - unfold s. replace (Z.max 1 ((1 - 1) * n)) with 1 by lia. rewrite Z.min_r, Z.max_l by lia. replace ((1 - 1) * n) with 0 by ring. unfold work. replace (1 * n) with n by ring.
    replace (n ^ 3) with (n * n * n) by ring. replace (n ^ 2) with (n * n) by ring. change (0 ^ 3 + 5 * 0 ^ 2 + 15 * 0) with 0. nia.
  - assert (S1 : s = (e - 1) * n) by (unfold s; nia). rewrite S1. set (h := e - 1). replace e with (h + 1) by (unfold h; lia). assert (H : 1 <= h) by (unfold h; lia). clearbody h. clear E E1 S1 s e.
    rewrite Z.min_l, Z.max_r by nia. unfold work. replace ((h * n) ^ 3) with (h * n * (h * n) * (h * n)) by ring. replace ((h * n) ^ 2) with (h * n * (h * n)) by ring.
    replace (((h + 1) * n) ^ 3) with ((h + 1) * n * ((h + 1) * n) * ((h + 1) * n)) by ring. replace (((h + 1) * n) ^ 2) with ((h + 1) * n * ((h + 1) * n)) by ring.
    assert (0 <= h * h * (n * n * n)) by (apply Z.mul_nonneg_nonneg; nia). assert (0 <= h * (n * n * n)) by (apply Z.mul_nonneg_nonneg; nia). assert (0 <= n * n * n) by nia. assert (h * n <= h * (n * n)) by nia. assert (0 <= n * n) by nia.
    lia.
Qed.
Lemma work_even s : 1 <= s -> work s + product s <= work (2 * s).
Proof.
  intros H. unfold work, product. replace (s ^ 3) with (s * s * s) by ring. replace (s ^ 2) with (s * s) by ring. replace ((2 * s) ^ 3) with (8 * (s * s * s)) by ring. replace ((2 * s) ^ 2) with (4 * (s * s)) by ring.
  assert (0 <= s * s * s) by nia. assert (0 <= s * s) by nia. lia.
Qed.
Lemma levels_odd e : 1 <= e -> Z.odd e = true -> levels e = 1 + levels (e - 1).
Proof.
  intros E O. unfold levels. rewrite Z.odd_sub, O. cbn [Z.odd xorb]. destruct (Z.eq_dec e 1) as [->|N]; [reflexivity|].
  enough (Z.log2 e = Z.log2 (e - 1)) by lia. apply Zodd_bool_iff in O. destruct (Zodd_ex e O) as [h ->]. replace (2 * h + 1 - 1) with (2 * h) by lia. rewrite Z.log2_succ_double, Z.log2_double by lia. reflexivity.
Qed.
Lemma levels_even e : 1 <= e -> Z.odd e = false -> 1 + levels (e / 2) <= levels e /\ e = 2 * (e / 2).
Proof.
  intros E O. assert (Ev : Z.even e = true) by (rewrite <- Z.negb_odd, O; reflexivity). apply Z.even_spec in Ev. destruct Ev as [h ->].
  assert (D : 2 * h / 2 = h) by (rewrite Z.mul_comm; apply Z.div_mul; lia). rewrite D. split; [|reflexivity]. unfold levels. rewrite O, Z.log2_double by lia. destruct (Z.odd h); lia.
Qed.
Lemma levels_pos e : 1 <= levels e.
Proof. unfold levels. pose proof (Z.log2_nonneg e). destruct (Z.odd e); lia. Qed.
Lemma exp_sp x L : canonical x -> forall f y, wf y -> nonneg y -> len (bins y) <= L ->
  spends (exponentiate_c f x y) (work (aval y * len (bins x)) + 28 * L * levels (aval y)) (fun r => canonical r /\ len (bins r) <= Z.max 1 (aval y * len (bins x)) /\ (aval y = 0 -> val r = 1)).
Proof.
  intros Cx. set (n := len (bins x)). assert (N : 1 <= n) by (apply len_pos; auto).
  induction f as [|f IH]; intros y Wy Ny Ly; pose proof (len_pos y Wy) as Py; pose proof (aval_nonneg y Wy) as Ay; pose proof (levels_pos (aval y)) as Lv; pose proof (work_pos (aval y * n) ltac:(nia)) as Wp; cbn [exponentiate_c].
  { apply (sp_weak _ 0 _ (fun _ => False)); [split; [cbn; lia|cbn; discriminate]|nia|tauto]. }
  match goal with |- spends _ _ ?Q => set (P := Q) end. set (R := work (aval y * n) + 28 * L * levels (aval y) - 2 * L).
  replace (work (aval y * n) + 28 * L * levels (aval y)) with (L + (L + R)) by (unfold R; ring). assert (PR : 0 <= R) by (unfold R; nia).
  eapply sp_bind with (Q1 := fun z => z = (aval y =? 0)); [|lia|].
  { destruct (equals_sp y 0 L ltac:(lia) Ly) as [H _]. split; [exact H|]. rewrite equals_e, equals_int32_0 by auto. congruence. }
  intros z ->. destruct (Z.eqb_spec (aval y) 0) as [E0|E0].
  { apply (sp_weak _ 0 _ P); [|lia|auto]. apply sp_free. intros r Er. injection Er as <-. unfold P. splits; [exact one_canonical|cbn; lia|reflexivity]. }
  eapply sp_bind with (Q1 := fun _ => True); [|lia|].
  { apply (sp_weak _ L _ (fun _ => True)); [apply equals_sp; auto; lia|lia|auto]. }
  intros z _. destruct z.
  { apply (sp_weak _ 0 _ P); [|lia|auto]. apply sp_ok. unfold P. splits; [exact Cx|fold n; nia|lia]. }
  replace R with (0 + R) by lia. eapply sp_bind with (Q1 := fun o => o = Z.odd (aval y)); [apply sp_free; rewrite is_odd_spec, val_nonneg_aval by auto; congruence|lia|].
  intros o ->. destruct (Z.odd (aval y)) eqn:O.
  - pose proof (levels_odd (aval y) ltac:(lia) O) as LO. set (e := aval y) in *.
    set (s := Z.max 1 ((e - 1) * n)). set (mc := Z.min n s * (Z.max n s * Z.max n s + 8 * Z.max n s + Z.min n s + 6) + (Z.max n s + Z.min n s + 2)).
    pose proof (work_odd n e N ltac:(lia)) as WO. cbv zeta in WO. fold s mc in WO. assert (PS : 1 <= s) by (unfold s; lia). assert (PM : 0 <= mc) by (unfold mc; nia). pose proof (levels_pos (e - 1)) as L1. pose proof (work_pos ((e - 1) * n) ltac:(nia)) as W1.
    apply (sp_weak _ (0 + (26 * L + ((work ((e - 1) * n) + 28 * L * levels (e - 1)) + mc))) _ P); [|unfold R; rewrite LO; nia|auto].
    assert (One : of_int64_c 1 0 = (Ok (mkInt [1] false), 0)) by reflexivity. rewrite One. eapply sp_bind with (Q1 := fun o => o = mkInt [1] false); [split; [cbn; lia|cbn; congruence]|nia|intros o ->].
    eapply sp_bind with (Q1 := fun z => wf z /\ nonneg z /\ aval z = e - 1 /\ len (bins z) <= L); [|nia|].
    + destruct (addsub_sp 1 true y (mkInt [1] false) L ltac:(lia) Ly ltac:(cbn; lia)) as [H _]. split; [exact H|]. rewrite op_sub_e. intros z Ez.
      pose proof (op_sub_gen y (mkInt [1] false) Wy (canonical_wf _ one_canonical)) as G. destruct (Bool.eqb _ _ && _); [rewrite Ez in G; discriminate|].
      destruct G as (z' & E & Wz & V & Z0 & _ & Cz). rewrite Ez in E. injection E as <-. rewrite (val_nonneg_aval y Ny) in V. change (val (mkInt [1] false)) with 1 in V. fold e in V.
      specialize (Cz Ny). assert (Nz : nonneg z). { unfold nonneg. rewrite (canonical_neg_eq z Cz). lia. }
      rewrite (val_nonneg_aval z Nz) in V. splits; auto. eapply Z.le_trans; [apply (len_le z (size y)); auto|unfold len, size in *; exact Ly].
      * apply size_pos, Wy.
      * pose proof (aval_lt_pw y Wy). fold e in H0. lia.
    + intros z (Wz & Nz & Vz & Lz). eapply sp_bind; [rewrite <- Vz; apply IH; auto|lia|]. rewrite Vz. intros a (Ca & La & A1).
      eapply sp_weak; [apply mul_sp; auto| |].
      * fold n. assert (La' : 0 <= len (bins a) <= s) by (pose proof (len_nonneg (bins a)); unfold s; lia). unfold mc. clear - La' N PS. set (u := len (bins a)) in *.
        assert (0 <= Z.min n u <= Z.min n s) by lia. assert (0 <= Z.max n u <= Z.max n s) by lia. set (a1 := Z.min n u) in *. set (a2 := Z.min n s) in *. set (b1 := Z.max n u) in *. set (b2 := Z.max n s) in *.
        assert (a1 * (b1 * b1 + 8 * b1 + a1 + 6) <= a2 * (b2 * b2 + 8 * b2 + a2 + 6)) by (apply Z.mul_le_mono_nonneg; nia). lia.
      * intros r (C & V & Lr). unfold P. splits; [exact C| |fold e; lia]. fold n in Lr. destruct (Z.eq_dec e 1) as [E1|E1]; [|nia].
        rewrite E1. apply Z.le_trans with n; [|lia]. rewrite (A1 ltac:(lia)), Z.mul_1_r in V. unfold n. apply (len_le r (size x)); auto; [apply size_pos; auto|].
        rewrite <- (abs_val r), V, abs_val by auto. apply aval_lt_pw; auto.
  - destruct (levels_even (aval y) ltac:(lia) O) as [LE EE]. set (e := aval y) in *. set (h := e / 2) in *. assert (H : 1 <= h) by lia.
    pose proof (levels_pos h) as L1. pose proof (work_pos (h * n) ltac:(nia)) as W1. pose proof (work_even (h * n) ltac:(nia)) as WE. replace (2 * (h * n)) with (e * n) in WE by (rewrite EE; ring).
    assert (PM : 0 <= product (h * n)) by (unfold product; pose proof (Z.pow_nonneg (h * n) 3 ltac:(nia)); pose proof (Z.pow_nonneg (h * n) 2 ltac:(nia)); nia).
    apply (sp_weak _ (L + ((work (h * n) + 28 * L * levels h) + product (h * n))) _ P); [|unfold R; nia|auto].
    eapply sp_bind with (Q1 := fun z => wf z /\ nonneg z /\ aval z = h /\ len (bins z) <= L); [|nia|].
    + destruct (half_sp y) as [H1 _]. split; [lia|]. rewrite divide_by_int_e. intros z Ez. destruct (divide_by_int_ok y 2 false Wy) as (z' & E & Wz & Nz & Sz & Vz); [unfold INT32_MAX; lia|].
      rewrite Ez in E. injection E as <-. splits; auto. unfold len, size in *. lia.
    + intros z (Wz & Nz & Vz & Lz). eapply sp_bind; [rewrite <- Vz; apply IH; auto|lia|]. rewrite Vz. intros a (Ca & La & A1). assert (La' : len (bins a) <= h * n) by nia.
      eapply sp_weak; [apply (mul_n a a (h * n)); auto|lia|]. intros r (C & V & Lr). unfold P. splits; [exact C| |fold e; lia]. fold e. nia.
Qed.
Lemma op_pow_sp x y : canonical x -> wf y -> nonneg y ->
  spends (op_pow_c x y) (power (aval y * len (bins x)) (aval y) (len (bins y))) (fun r => canonical r /\ len (bins r) <= Z.max 1 (aval y * len (bins x))).
Proof.
  intros Cx Wy Ny. eapply sp_weak; [apply (exp_sp x (len (bins y)) Cx); auto; lia| |].
  - unfold power, work, levels. pose proof (len_nonneg (bins y)). destruct (Z.odd (aval y)); nia.
  - intros r (C & L & _). auto.
Qed.
