(** A finer bound on the rounds of division: only as many bins are searched for as the
    quotient has, so the square of the divisor's length is paid n - m + 1 times. *)
From Coq Require Import ZifyBool.
From Verif Require Import Base IntModel IntSpec IntBasics IntAddSub IntMul IntDiv IntSize CostModel CostProofs IntCostModel IntCost IntCost2 IntCost3 IntCost4.
Local Open Scope list_scope.
Local Open Scope Z_scope.

(** With k bins of n left, how many of these may be searched for (the divisor has m). *)
Definition dear (n m k : nat) : Z := Z.min (Z.of_nat k) (Z.max 0 (Z.of_nat n - Z.of_nat m + 1)).
Lemma dear_pos n m k : 0 <= dear n m k. Proof. unfold dear. lia. Qed.
Lemma dear_mono n m k : dear n m k <= dear n m (S k). Proof. unfold dear. lia. Qed.
Lemma dear_step n m k : (S k <= n)%nat -> (m <= n - k)%nat -> dear n m (S k) = dear n m k + 1. Proof. unfold dear. lia. Qed.
Lemma div_loop_fine xn n : wf xn -> trimmed (bins xn) -> nonneg xn -> 0 < aval xn -> forall k bs r cur rem, Forall digit_ok bs ->
  canonical cur -> nonneg cur -> aval cur = B * rem -> 0 <= rem < aval xn -> (k <= n)%nat -> rem < pw (n - k) ->
  spends (div_loop_c k xn bs r cur) (dear n (size xn) k * one_bin (len (bins xn)) + Z.of_nat k * (2 * len (bins xn) + 6) + len bs) (fun l => len l <= len bs).
Proof.
  intros Hx Tx.
  intros Nx Px. set (X := aval xn) in *. set (m := len (bins xn)).
  assert (M : 1 <= m) by (unfold m; pose proof (size_pos xn Hx); unfold size, len in *; lia).
  assert (OB : 0 <= one_bin m) by (unfold one_bin; nia).
  assert (XB : X < pw (size xn)) by (apply aval_lt_pw; auto).
  assert (XL : pw (size xn - 1) <= X) by (apply size_aval_lower; auto; fold X; lia).
  pose proof (dear_pos n (size xn)) as DP.
  induction k as [|i IH]; intros bs r cur rem D Cc Nc Vc Hr Hk Hp; cbn [div_loop_c].
  - eapply sp_weak; [apply sp_ok; exact (eq_refl bs)|pose proof (len_nonneg bs); pose proof (DP 0%nat); nia|]. intros a <-. lia.
  - set (K := dear n (size xn) i * one_bin m + Z.of_nat i * (2 * m + 6)) in *. assert (PK : 0 <= K) by (unfold K; pose proof (DP i); nia). pose proof (len_nonneg bs) as Lb.
    set (D1 := dear n (size xn) (S i) * one_bin m - dear n (size xn) i * one_bin m). assert (PD1 : 0 <= D1) by (unfold D1; pose proof (dear_mono n (size xn) i); nia).
    apply (sp_weak _ (1 + (0 + (0 + (0 + (0 + ((m + 1) + (D1 + (m + 3) + K + len bs))))))) _ (fun l => len l <= len bs)); [|unfold D1, K; lia|auto].
    apply sp_lap. eapply sp_bind with (Q1 := fun _ => True); [apply sp_free; auto|nia|intros _ _].
    eapply sp_bind with (Q1 := fun _ => True); [apply sp_free; auto|nia|intros _ _].
    eapply sp_bind with (Q1 := fun b => digit_ok b); [apply sp_free; intros a; apply at_digit; auto|nia|intros bi Hb].
    destruct (set_first cur rem bi Cc Nc Vc ltac:(lia) Hb) as [cb [E1 [W1 [T1 V1]]]].
    eapply sp_bind with (Q1 := fun c => c = cb); [apply sp_free; rewrite E1; congruence|nia|intros c ->].
    set (cu := mkInt cb (negative cur)) in *. assert (Nu : nonneg cu) by exact Nc. assert (Vu : aval cu = B * rem + bi) by exact V1. unfold digit_ok in Hb.
    assert (Lc : len (bins cu) <= m + 1) by (apply (cur_len X (size xn)); auto; lia).
    eapply sp_bind with (Q1 := fun c => c = cmp_bins xn cu); [|nia|intros c ->].
    { destruct (cmp_bins_sp xn cu (m + 1)) as [H1 _]; [fold m; lia|auto|]. split; [exact H1|]. intros a E. injection E as <-. reflexivity. }
    rewrite cmp_bins_spec by assumption. fold X. pose proof (aval_nonneg cu W1) as Au.
    destruct (Z.leb_spec (Z.sgn (X - aval cu)) 0).
    + assert (DE : D1 = one_bin m).
      { unfold D1. rewrite (dear_step n (size xn) i); [lia|auto|]. destruct (le_lt_dec (size xn) (n - i)) as [L|L]; [exact L|exfalso].
        assert (aval cu < pw (n - i)). { rewrite Vu. replace (n - i)%nat with (S (n - S i)) by lia. rewrite pw_S. lia. }
        pose proof (pw_le (n - i) (size xn - 1) ltac:(lia)). lia. }
      destruct (quotient_and_remainder_ok cu xn r) as [r1 [E2 [C2 [N2 V2]]]]; auto; try (fold X; lia). fold X in E2, V2.
      pose proof (Z.mod_pos_bound (aval cu) X Px) as Mo.
      assert (0 < aval cu / X < B). { split; [apply Z.div_str_pos; lia|apply Z.div_lt_upper_bound; lia]. }
      apply (sp_weak _ ((one_bin m + (0 + (0 + 0))) + ((m + 3) + (K + len bs))) _ (fun l => len l <= len bs)); [|lia|auto].
      eapply sp_bind with (Q1 := fun st => exists bs', Forall digit_ok bs' /\ len bs' = len bs /\ st = (bs', r1, r1)); [|nia|].
      * eapply sp_bind with (Q1 := fun p => p = (aval cu / X, r1)); [|nia|].
        { split; [apply qr_sp; auto; fold X; lia|]. rewrite qr_e, E2. congruence. }
        intros p ->. cbn [fst snd]. eapply sp_bind with (Q1 := fun _ => True); [apply sp_free; auto|lia|intros _ _].
        eapply sp_bind with (Q1 := fun l => Forall digit_ok l /\ len l = len bs); [apply sp_free; intros a; apply set_digits; auto; unfold digit_ok; lia|lia|].
        intros l [Dl L1]. apply sp_ok. eauto.
      * intros st (bs' & D' & L' & ->). destruct (next_current r1 ltac:(auto) ltac:(auto) N2) as [C3 [N3 V3]].
        eapply sp_bind with (Q1 := fun c => c = clean_bins (Int_shifted r1 1)); [|nia|].
        { assert (L1 : len (bins r1) <= m + 1) by (apply (cur_len X (size xn)); auto; lia).
          destruct (clean_bins_sp (Int_shifted r1 1) (m + 2)) as [H1 _]; [cbn [Int_shifted bins]; rewrite len_app, len_repeat; lia|].
          split; [cbn [lap snd]; lia|]. intros a E. injection E as <-. reflexivity. }
        intros c ->. rewrite <- L'. apply (IH bs' r1 _ (aval cu mod X)); auto; try lia.
        apply Z.le_lt_trans with (aval cu); [apply Z.mod_le; lia|]. rewrite Vu. replace (n - i)%nat with (S (n - S i)) by lia. rewrite pw_S. lia.
    + apply (sp_weak _ (0 + ((m + 3) + (K + len bs))) _ (fun l => len l <= len bs)); [|lia|auto].
      destruct (next_current cu W1 T1 Nu) as [C3 [N3 V3]]. assert (aval cu < X) by lia.
      (* the bins dropped by cleanBins are paid for by the length of bs *)
      destruct (set_nth bs i 0) as [bs'| | | |] eqn:Es.
      2: { apply (sp_weak _ 0 _ (fun _ => False)); [split; [cbn; lia|cbn; discriminate]|nia|tauto]. }
      2-4: apply (sp_weak _ 0 _ (fun _ => False)); [split; [cbn; lia|cbn; discriminate]|nia|tauto].
      destruct (set_digits bs i 0 bs' D digit_ok_0 Es) as [D' L']. destruct (clean_len bs') as [CL _].
      unfold clean_c, free. cbn [cbind fst snd].
      assert (Hp' : aval cu < pw (n - i)) by (rewrite Vu; replace (n - i)%nat with (S (n - S i)) by lia; rewrite pw_S; lia).
      assert (IH' := IH (clean_list bs') r (clean_bins (Int_shifted cu 1)) (aval cu) (clean_digits bs' D') C3 N3 V3 ltac:(lia) ltac:(lia) Hp').
      destruct (clean_bins_sp (Int_shifted cu 1) (m + 2)) as [H1 _]; [cbn [Int_shifted bins]; rewrite len_app, len_repeat; lia|].
      destruct IH' as [I1 I2]. unfold spends. unfold clean_bins_c, clean_c, lap, free in *. cbn [cbind fst snd] in *. fold (clean_bins (Int_shifted cu 1)) in *. split.
      * fold K in I1. lia.
      * intros a E. specialize (I2 a E). cbv beta in I2. lia.
Qed.
Definition searched (n m : Z) : Z := Z.max 0 (n - m + 1).
Lemma divide_fine x y : wf x -> wf y -> trimmed (bins y) -> let n := len (bins x) in let m := len (bins y) in
  spends (divide_c x y) (searched n m * one_bin m + n * (2 * m + 8) + 4 * m) (fun r => canonical r /\ len (bins r) <= Z.max 1 (n - m + 1)).
Proof.
  intros Hx Hy Ty n m. assert (M : 1 <= m) by (unfold m; pose proof (size_pos y Hy); unfold size, len in *; lia).
  assert (N : 1 <= n) by (unfold n; pose proof (size_pos x Hx); unfold size, len in *; lia).
  assert (OB : 0 <= one_bin m) by (unfold one_bin; nia). set (D := searched n m). assert (PD : 0 <= D) by (unfold D, searched; lia).
  split.
  2: { intros r Er. rewrite divide_e in Er. destruct (divide_gen x y Hx Hy) as [(_ & E)|[(_ & _ & E)|(_ & Q & [(_ & E)|(_ & r' & E & C & V)])]]; rewrite E in Er; try discriminate; injection Er as <-.
    - split; [apply Int_default_canonical|]. cbn. lia.
    - split; [exact C|]. pose proof (aval_nonneg y Hy) as Py. pose proof (aval_nonneg x Hx) as Px.
      assert (Ny : aval y <> 0). { intros E0. unfold divide in E. rewrite equals_int32_0, E0 in E by auto. cbn in E. discriminate. }
      assert (Va : aval r' = aval x / aval y). { rewrite <- (abs_val r') by auto. rewrite V, <- Z.quot_abs by (pose proof (abs_val y Hy); lia). rewrite !abs_val, Z.quot_div_nonneg by (auto; lia). reflexivity. }
      assert ((size y <= size x)%nat).
      { destruct (le_lt_dec (size y) (size x)) as [L|L]; [exact L|exfalso]. pose proof (size_aval_lower y Hy Ty Ny). pose proof (aval_lt_pw x Hx). pose proof (pw_le (size x) (size y - 1) ltac:(lia)). lia. }
      assert ((size r' <= size x - size y + 1)%nat).
      { apply size_le_of_aval; auto; [lia|]. rewrite Va. apply Z.div_lt_upper_bound; [lia|]. pose proof (size_aval_lower y Hy Ty Ny) as Ly. pose proof (aval_lt_pw x Hx) as Lx.
        replace (size x) with ((size y - 1) + (size x - size y + 1))%nat in Lx by (pose proof (size_pos y Hy); lia). rewrite pw_add in Lx. pose proof (pw_pos (size x - size y + 1)). nia. }
      unfold size, n, m, len in *. lia. }
  enough (G : spends (divide_c x y) (m + ((n + m) + (2 * m + (D * one_bin m + n * (2 * m + 6) + n)))) (fun _ => True)).
  { destruct G as [G _]. lia. }
  unfold divide_c. eapply sp_bind with (Q1 := fun z => z = (aval y =? 0)); [|nia|].
  { destruct (equals_sp y 0 m M ltac:(unfold m; lia)) as [H _]. split; [exact H|]. rewrite equals_e, equals_int32_0 by auto. congruence. }
  intros z ->. destruct (Z.eqb_spec (aval y) 0) as [E|E]; [apply (sp_weak _ 0 _ (fun _ => False)); [split; [cbn; lia|cbn; discriminate]|nia|tauto]|].
  eapply sp_bind with (Q1 := fun c => True); [|nia|].
  { destruct (cmp_bins_sp x y (n + m)) as [H _]; [fold n; lia|fold m; lia|]. split; [exact H|]. auto. }
  intros c _. destruct (c <? 0).
  { eapply sp_weak; [apply sp_free; intros a Ha; exact Ha|nia|]. auto. }
  assert (X1 : spends (if negative y then op_neg_c y else copy_c y) (2 * m) (fun xn => wf xn /\ nonneg xn /\ bins xn = bins y)).
  { destruct (negative y) eqn:Ny.
    - destruct (op_neg_sp y m M ltac:(unfold m; lia)) as [H _]. split; [exact H|]. rewrite op_neg_e.
      destruct (op_neg_nonneg y Hy Ny) as [r [E1 [W [Nn [V Bb]]]]]. rewrite E1. intros a Ha. injection Ha as <-. auto.
    - eapply sp_weak; [apply (copy_sp y m); unfold m; lia|lia|]. intros a <-. auto. }
  eapply sp_bind; [exact X1|nia|]. intros xn (W & Nn & Bx). assert (Ax : aval xn = aval y) by (apply aval_bins; auto).
  eapply sp_weak; [eapply (sp_bind _ _ (D * one_bin m + n * (2 * m + 6) + n) 0) with (Q1 := fun _ => True)|lia|exact (fun a H => H)]; [|lia|].
  - pose proof (aval_nonneg y Hy) as Py.
    assert (G := div_loop_fine xn (size x) W ltac:(rewrite Bx; exact Ty) Nn ltac:(lia) (size x) (bins x) Int_default Int_default 0 ltac:(apply Hx) Int_default_canonical eq_refl eq_refl ltac:(lia) ltac:(lia) ltac:(apply pw_pos)).
    assert (DE : dear (size x) (size xn) (size x) = D).
    { unfold dear, D, searched, n, m, len, size. rewrite Bx. pose proof (size_pos y Hy). unfold size in *. lia. }
    rewrite DE, Bx in G. fold m n in G. change (Z.of_nat (size x)) with n in G. eapply sp_weak; [exact G|lia|auto].
  - intros l Hl. apply sp_ok. exact I.
Qed.
Lemma op_div_fine x y : wf x -> wf y -> trimmed (bins y) -> let n := len (bins x) in let m := len (bins y) in
  spends (op_div_c x y) (searched n m * one_bin m + n * (2 * m + 9) + 4 * m) (fun r => canonical r /\ len (bins r) <= Z.max 1 (n - m + 1)).
Proof.
  intros Hx Hy Ty n m. pose proof (len_nonneg (bins x)) as Ln. pose proof (len_nonneg (bins y)) as Lm. fold n in Ln. fold m in Lm.
  assert (OB : 0 <= searched n m * one_bin m) by (unfold searched, one_bin; nia). unfold op_div_c.
  eapply sp_weak; [eapply (sp_bind _ _ n (searched n m * one_bin m + n * (2 * m + 8) + 4 * m)); [apply copy_sp; unfold n; lia|nia|]|lia|exact (fun a H => H)].
  intros r <-. apply divide_fine; auto.
Qed.
Lemma div_assign_fine x o : wf x -> wf (rd x o) -> trimmed (bins (rd x o)) -> let n := len (bins x) in let m := len (bins (rd x o)) in
  spends (div_assign_c x o) (searched n m * one_bin m + n * (2 * m + 8) + 5 * m) (fun r => canonical r /\ len (bins r) <= Z.max 1 (n - m + 1)).
Proof.
  intros Hx Hy Ty n m. pose proof (len_nonneg (bins x)) as Ln. pose proof (len_nonneg (bins (rd x o))) as Lm. fold n in Ln. fold m in Lm.
  assert (OB : 0 <= searched n m * one_bin m) by (unfold searched, one_bin; nia). unfold div_assign_c.
  eapply sp_weak; [eapply (sp_bind _ _ m (searched n m * one_bin m + n * (2 * m + 8) + 4 * m)); [apply copy_sp; unfold m; lia|nia|]|lia|exact (fun a H => H)].
  intros r <-. apply divide_fine; auto.
Qed.

(** *** Remainders *)
(** q * (y of m bins) with q of at most q bins, q + m <= k *)
Lemma product_fine q m k a : 0 <= a <= q -> 1 <= m -> q + m <= k -> Z.min a m * (Z.max a m * Z.max a m + 8 * Z.max a m + Z.min a m + 6) <= q * (m * k + 9 * m + 6).
Proof.
  intros Ha Hm Hk. set (u := Z.min a m). set (v := Z.max a m). assert (E : u * v = a * m) by (unfold u, v; destruct (Z_le_gt_dec a m); rewrite ?Z.min_l, ?Z.max_r, ?Z.min_r, ?Z.max_l by lia; ring).
  assert (U : 0 <= u /\ u <= a /\ u <= m) by (unfold u; lia). assert (V : 0 <= v <= k) by (unfold v; lia).
  replace (u * (v * v + 8 * v + u + 6)) with ((a * m) * v + 8 * (a * m) + u * u + 6 * u) by (rewrite <- E; ring).
  assert (a * m * v <= q * m * k) by (apply Z.mul_le_mono_nonneg; nia). nia.
Qed.
Definition remainder_fine (n m : Z) : Z :=
  let q := Z.max 1 (n - m + 1) in let k := Z.max n m + 1 in
  q * (one_bin m + m * k + 9 * m + 6) + n * (2 * m + 11) + 6 * m + 54 * k + 135.
Lemma op_mod_fine x y : wf x -> wf y -> trimmed (bins y) -> spends (op_mod_c x y) (remainder_fine (len (bins x)) (len (bins y))) (fun _ => True).
Proof.
  intros Hx Hy Ty. set (n := len (bins x)). set (m := len (bins y)).
  assert (M : 1 <= m) by (unfold m; pose proof (size_pos y Hy); unfold size, len in *; lia).
  assert (N : 1 <= n) by (unfold n; pose proof (size_pos x Hx); unfold size, len in *; lia).
  set (Q := Z.max 1 (n - m + 1)). set (k := Z.max n m + 1). set (K := k + 2). assert (OB : 0 <= one_bin m) by (unfold one_bin; nia).
  assert (SQ : 0 <= searched n m <= Q) by (unfold searched, Q; lia). set (mc := Q * (m * k + 9 * m + 6)). assert (QP : 1 <= Q) by (unfold Q; lia). assert (kP : 1 <= k) by (unfold k; lia). assert (MC : 0 <= mc) by (unfold mc; nia).
  set (dv := searched n m * one_bin m + n * (2 * m + 9) + 4 * m). assert (DP : 0 <= dv) by (unfold dv; nia). assert (KP : 1 <= K /\ n <= K /\ m <= K) by (unfold K, k; lia).
  apply (sp_weak _ (n + (m + (n + (m + (dv + ((mc + (k + 2)) + (26 * K + ((K + 1) + 26 * (K + 1))))))))) _ (fun _ => True));
    [|unfold remainder_fine; fold Q k; assert (searched n m * one_bin m <= Q * one_bin m) by nia; unfold dv, K, mc; lia|auto].
  unfold op_mod_c.
  eapply sp_bind; [apply copy_sp; unfold n; lia|lia|intros x' <-]. eapply sp_bind; [apply copy_sp; unfold m; lia|lia|intros y' <-].
  assert (NG : forall z k, wf z -> 1 <= k -> len (bins z) <= k -> spends (if negative z then negate_c z else free (Ok z)) k (fun r => bins r = bins z /\ wf r)).
  { intros z k0 Hz K1 Kz. destruct (negative z).
    - eapply sp_weak; [apply (negate_sp z k0); auto|lia|]. intros r [Br _]. split; [exact Br|]. unfold wf in *. rewrite Br. exact Hz.
    - apply sp_weak with (k := 0) (Q := fun r => bins r = bins z /\ wf r); [apply sp_ok; auto|lia|auto]. }
  eapply sp_bind; [apply (NG x n); auto; unfold n; lia|lia|intros a (Ba & Wa)]. eapply sp_bind; [apply (NG y m); auto; unfold m; lia|lia|intros b (Bb & Wb)].
  assert (DV : spends (op_div_c a b) dv (fun q => wf q /\ len (bins q) <= Q)).
  { eapply sp_weak; [apply (op_div_fine a b Wa Wb); rewrite Bb; exact Ty|rewrite Ba, Bb; fold n m; apply Z.le_refl|]. intros q [C L]. rewrite Ba, Bb in L. split; auto. }
  eapply sp_bind; [exact DV|lia|intros q (Wq & Lq)].
  assert (ML : spends (op_mul_c q b) (mc + (k + 2)) (fun r => len (bins r) <= K)).
  { destruct (op_mul_sp q b Wq Wb) as [D1 D2]. rewrite Bb in D1, D2. fold m in D1, D2. pose proof (len_nonneg (bins q)) as Pq. assert (QK : Q + m <= k) by (unfold Q, k; lia). split.
    - eapply Z.le_trans; [exact D1|]. pose proof (product_fine Q m k (len (bins q)) ltac:(lia) M QK) as P. fold mc in P. lia.
    - intros r Er. specialize (D2 r Er). cbv beta in D2. unfold K. lia. }
  eapply sp_bind; [exact ML|lia|intros r Hr]. cbv beta in Hr.
  eapply sp_bind; [apply (addsub_sp _ _ a r K); auto; rewrite ?Ba; fold n; lia|lia|intros d Hd]. unfold fits in Hd.
  eapply sp_bind; [apply (equals_sp d 0 (K + 1)); auto; lia|lia|intros z _].
  destruct z; [apply sp_weak with (k := 0) (Q := fun _ => True); [apply sp_ok; auto|lia|auto]|].
  destruct (negative x && negative y); [eapply sp_weak; [apply (negate_sp d (K + 1)); auto; lia|lia|auto]|].
  destruct (negb (negative x) && negative y); [eapply sp_weak; [apply (addsub_assign_sp _ _ d (Some y) (K + 1)); cbn [rd]; auto; fold m; lia|lia|auto]|].
  destruct (negative x && negb (negative y)); [eapply sp_weak; [apply (addsub_sp _ _ y d (K + 1)); auto; fold m; lia|lia|auto]|].
  apply sp_weak with (k := 0) (Q := fun _ => True); [apply sp_ok; auto|lia|auto].
Qed.
