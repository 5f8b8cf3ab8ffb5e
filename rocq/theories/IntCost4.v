(** Bounds on the rounds of quotients and remainders of Ints. *)
From Coq Require Import ZifyBool.
From Verif Require Import Base IntModel IntSpec IntBasics IntAddSub IntMul IntDiv IntSize CostModel CostProofs IntCostModel IntCost IntCost2 IntCost3.
Local Open Scope list_scope.
Local Open Scope Z_scope.

Lemma cbind_more {A B} (m : counted A) (f g : A -> counted B) : (forall a, fst m = Ok a -> fst (f a) <> OutOfFuel -> g a = f a) -> fst (cbind m f) <> OutOfFuel -> cbind m g = cbind m f.
Proof. intros H. destruct m as [[a| | | |] n]; cbn; auto. intros K. rewrite H; auto. Qed.
Lemma iter_c_more n : forall y x b step m, fst (iter_quotient_c n y x b step) <> OutOfFuel -> iter_quotient_c (n + m) y x b step = iter_quotient_c n y x b step.
Proof.
  induction n as [|n IH]; intros y x b step m H; [cbn in H; congruence|]. cbn [iter_quotient_c Nat.add] in *. unfold lap in *. cbn [fst] in H.
  enough (E : forall p q : counted (Z * Int), p = q -> (fst p, 1 + snd p) = (fst q, 1 + snd q)); [apply E|intros p q ->; reflexivity].
  revert H. apply cbind_more. intros b' _. apply cbind_more. intros p _. apply cbind_more. intros r _. apply cbind_more. intros [] _ K; [apply IH; exact K|reflexivity].
Qed.

(** One trial, for a divisor of m bins and a dividend of at most m + 1. *)
Definition trial (m : Z) : Z := m * m + 27 * m + 58.
Lemma trial_pos m : 0 <= m -> 0 <= trial m. Proof. unfold trial. nia. Qed.
Lemma iter_sp y x m : wf x -> nonneg y -> len (bins x) = m -> len (bins y) <= m + 1 ->
  forall f b step, 0 <= b -> 0 <= step -> spends (iter_quotient_c f y x b step) (Z.of_nat f * trial m) (fun _ => True).
Proof.
  intros Hx Ny Lx Ly. assert (M : 0 <= m) by (rewrite <- Lx; apply len_nonneg). induction f as [|f IH]; intros b step Hb Hs; cbn [iter_quotient_c].
  - apply (sp_weak _ 0 _ (fun _ => True)); [apply sp_free; auto|lia|auto].
  - assert (T : 0 <= Z.of_nat f * trial m) by (pose proof (trial_pos m M); nia).
    apply (sp_weak _ (1 + (0 + (m * (m + 8) + (18 * (m + 3) + ((m + 3) + Z.of_nat f * trial m))))) _ (fun _ => True)); [|unfold trial; nia|auto].
    apply sp_lap. eapply sp_bind with (Q1 := fun b' => 0 <= b' <= INT32_MAX); [apply sp_free|nia|].
    { intros a Ha. unfold i32 in Ha. destruct (in_int32 (b + step)) eqn:E; [|discriminate]. injection Ha as <-. unfold in_int32, INT32_MAX in *. lia. }
    intros b' Hb'. eapply sp_bind; [eapply sp_weak; [apply (mbi_sp 3 x b'); [lia|apply Hx|lia|]|rewrite Lx; lia|exact (fun a H => H)]|nia|].
    { change (pw 3) with (B * (B * B)). unfold INT32_MAX in Hb'. lia. }
    intros p [Np Lp]. rewrite Lx in Lp. eapply sp_bind; [apply (sub_nonneg_sp 2 y p (m + 3)); auto; try lia|nia|].
    intros r Lr. unfold fits in Lr. eapply sp_bind with (Q1 := fun _ => True); [|nia|].
    { destruct (negb (negative r)); [|apply (sp_weak _ 0 _ (fun _ => True)); [apply sp_free; auto|lia|auto]].
      apply (sp_weak _ ((m + 3) + 0) _ (fun _ => True)); [|lia|auto]. eapply sp_bind; [apply cmp_bins_sp; lia|lia|]. intros c _. apply sp_free. auto. }
    intros [] _; [apply IH; lia|]. apply (sp_weak _ 0 _ (fun _ => True)); [apply sp_free; auto|lia|auto].
Qed.
Lemma qr_loop_sp y x (Q : Z) m :
  wf x -> wf y -> trimmed (bins y) -> nonneg y -> 0 < aval x -> Q = aval y / aval x -> Q < B -> len (bins x) = m -> len (bins y) <= m + 1 ->
  forall h fuel step q r, 0 <= q < Q -> 1 <= step <= B -> Q <= q + step -> step < 2 ^ Z.of_nat (S h) -> (h < fuel)%nat ->
  spends (qr_loop_c fuel y x step q r) (Z.of_nat h * (1 + 3 * trial m)) (fun _ => True).
Proof.
  intros Hx Hy Ty Ny Px EQ HQ Lx Ly. assert (M : 0 <= m) by (rewrite <- Lx; apply len_nonneg). pose proof (trial_pos m M) as T.
  induction h as [|h IH]; intros fuel step q r Hq Hs HQs Hh Hf.
  - cbn in Hh. destruct fuel as [|f]; [lia|]. cbn [qr_loop_c]. destruct (Z.gtb_spec step 1); [lia|]. apply (sp_weak _ 0 _ (fun _ => True)); [apply sp_free; auto|lia|auto].
  - destruct fuel as [|f]; [lia|]. cbn [qr_loop_c]. destruct (Z.gtb_spec step 1); [|apply (sp_weak _ 0 _ (fun _ => True)); [apply sp_free; auto|nia|auto]].
    assert (S2 : step ÷ 2 = step / 2) by (apply Z.quot_div_nonneg; lia).
    assert (S3 : 0 < step / 2 /\ step / 2 * 2 <= step /\ step <= step / 2 * 2 + 1) by ldiv.
    rewrite S2. set (st := step / 2) in *. clearbody st.
    destruct (iter_quotient_spec y x Q Hx Hy Ty Ny Px EQ HQ 3 q st Hq ltac:(lia)) as [q' [r' [E [H1 [H2 [H3 H4]]]]]]; [lia|].
    assert (E' : iter_quotient_c ITER_FUEL y x q st = iter_quotient_c 3 y x q st).
    { change ITER_FUEL with (3 + 5)%nat. apply iter_c_more. rewrite iter_e, E. discriminate. }
    rewrite E'. apply (sp_weak _ (1 + (3 * trial m + Z.of_nat h * (1 + 3 * trial m))) _ (fun _ => True)); [|nia|auto]. apply sp_lap.
    eapply sp_bind with (Q1 := fun p => p = (q', r')); [|nia|].
    + destruct (iter_sp y x m Hx Ny Lx Ly 3 q st ltac:(lia) ltac:(lia)) as [H5 _]. split; [lia|]. rewrite iter_e, E. congruence.
    + intros p ->. cbn [fst snd]. apply IH; try lia. rewrite Nat2Z.inj_succ, Z.pow_succ_r in Hh by lia. lia.
Qed.
(** One bin of the quotient. *)
Definition one_bin (m : Z) : Z := 89 * m * m + 2370 * m + 5106.
Lemma qr_sp y x r m : wf x -> nonneg x -> wf y -> trimmed (bins y) -> nonneg y -> 0 < aval x -> aval x <= aval y < B * aval x -> len (bins x) = m -> len (bins y) <= m + 1 ->
  snd (quotient_and_remainder_c y x r) <= one_bin m.
Proof.
  intros Hx Nx Hy Ty Ny Px V Lx Ly. assert (M : 1 <= m) by (rewrite <- Lx; pose proof (size_pos x Hx); unfold size, len in *; lia). pose proof (trial_pos m ltac:(lia)) as T.
  set (Q := aval y / aval x). assert (HQ1 : 1 <= Q) by (apply Z.div_le_lower_bound; lia). assert (HQ2 : Q < B) by (apply Z.div_lt_upper_bound; lia).
  enough (G : spends (quotient_and_remainder_c y x r) (0 + (0 + (2 * (m + 1) + ((1 + (2 * m * m + 17 * m + 20 + 2 * (m + 4))) + (0 + (29 * (1 + 3 * trial m) + 0)))))) (fun _ => True)).
  { destruct G as [G _]. unfold one_bin, trial in *. lia. }
  unfold quotient_and_remainder_c. eapply sp_bind with (Q1 := fun _ => True); [apply sp_free; auto|nia|intros _ _].
  eapply sp_bind with (Q1 := fun _ => True); [apply sp_free; auto|nia|intros _ _].
  eapply sp_bind; [apply le_sp; lia|nia|intros le _].
  eapply sp_bind with (Q1 := fun _ => True); [|nia|intros lt _].
  - destruct le; [|apply (sp_weak _ 0 _ (fun _ => True)); [apply sp_free; auto|nia|auto]].
    eapply sp_bind with (Q1 := fun bl => bl = mkInt [0; 1] false); [|nia|].
    + split; [vm_compute; discriminate|]. intros a E. vm_compute in E. injection E as <-. reflexivity.
    + intros bl ->. assert (Wb : wf (mkInt [0; 1] false)). { split; [discriminate|]. cbn [bins]. unfold digit_ok. repeat constructor; lia. }
      pose proof (op_mul_sp (mkInt [0; 1] false) x Wb Hx) as P. cbn zeta in P. rewrite Lx in P. change (len (bins (mkInt [0; 1] false))) with 2 in P.
      eapply sp_bind with (Q1 := fun b => len (bins b) <= m + 4); [eapply sp_weak; [exact P| |]|nia|].
      * destruct (Z.eq_dec m 1) as [->|M2]; [cbn; lia|]. rewrite Z.max_r, Z.min_l by lia. nia.
      * cbv beta. intros a Ha. lia.
      * intros b Lb. apply lt_sp; lia.
  - eapply sp_bind with (Q1 := fun _ => True); [apply sp_free; auto|nia|intros _ _].
    eapply sp_bind with (Q1 := fun _ => True); [|lia|intros qr _].
    + apply (qr_loop_sp y x Q m Hx Hy Ty Ny Px eq_refl HQ2 Lx Ly 29 32 BIN_LIMIT 0 r); unfold BIN_LIMIT; try lia.
    + apply (sp_weak _ (0 + 0) _ (fun _ => True)); [|lia|auto]. eapply sp_bind with (Q1 := fun _ => True); [apply sp_free; auto|lia|]. intros q _. apply sp_free. auto.
Qed.

Lemma at_digit bs : forall i b, Forall digit_ok bs -> at_ bs i = Ok b -> digit_ok b.
Proof. intros i b D. unfold at_. destruct (nth_error bs i) eqn:E; [|discriminate]. intros H. injection H as <-. rewrite Forall_forall in D. apply D. eapply nth_error_In; eauto. Qed.
Lemma set_digits bs : forall i v r, Forall digit_ok bs -> digit_ok v -> set_nth bs i v = Ok r -> Forall digit_ok r /\ len r = len bs.
Proof.
  induction bs as [|b bs IH]; intros i v r D V E; [destruct i; discriminate|]. inversion D; subst. destruct i as [|i]; cbn [set_nth] in E.
  - injection E as <-. rewrite !len_cons. auto.
  - destruct (set_nth bs i v) as [l| | | |] eqn:E1; try discriminate. cbn in E. injection E as <-. destruct (IH i v l H2 V E1). rewrite !len_cons. split; [auto|lia].
Qed.
Lemma drop_digits l : Forall digit_ok l -> Forall digit_ok (drop_zeros l).
Proof. induction l as [|b l IH]; intros D; [exact D|]. cbn [drop_zeros]. destruct l as [|c l]; [exact D|]. inversion D; subst. destruct (b =? 0); auto. Qed.
Lemma clean_digits l : Forall digit_ok l -> Forall digit_ok (clean_list l).
Proof. intros D. unfold clean_list. apply Forall_rev, drop_digits, Forall_rev, D. Qed.

Definition round (m : Z) : Z := one_bin m + 2 * m + 6.
Lemma cur_len X m c : wf c -> trimmed (bins c) -> aval c < B * X -> X < pw m -> len (bins c) <= Z.of_nat m + 1.
Proof.
  intros W T H K. assert ((size c <= S m)%nat). { apply size_le_of_aval; auto; [lia|]. rewrite pw_S. nia. }
  unfold size, len in *. lia.
Qed.
Lemma div_loop_sp xn : wf xn -> nonneg xn -> 0 < aval xn -> forall k bs r cur rem, Forall digit_ok bs ->
  canonical cur -> nonneg cur -> aval cur = B * rem -> 0 <= rem < aval xn ->
  spends (div_loop_c k xn bs r cur) (Z.of_nat k * round (len (bins xn)) + len bs) (fun l => len l <= len bs).
Proof.
  intros Hx Nx Px. set (X := aval xn) in *. set (m := len (bins xn)).
  assert (M : 1 <= m) by (unfold m; pose proof (size_pos xn Hx); unfold size, len in *; lia).
  assert (OB : 0 <= one_bin m) by (unfold one_bin; nia).
  assert (XB : X < pw (size xn)) by (apply aval_lt_pw; auto).
  induction k as [|i IH]; intros bs r cur rem D Cc Nc Vc Hr; cbn [div_loop_c].
  - eapply sp_weak; [apply sp_ok; exact (eq_refl bs)|pose proof (len_nonneg bs); lia|]. intros a <-. lia.
  - set (K := Z.of_nat i * round m) in *. assert (PK : 0 <= K) by (unfold K, round; nia). pose proof (len_nonneg bs) as Lb.
    apply (sp_weak _ (1 + (0 + (0 + (0 + (0 + ((m + 1) + (one_bin m + (m + 3) + K + len bs))))))) _ (fun l => len l <= len bs)); [|unfold round in *; unfold K, round; lia|auto].
    apply sp_lap. eapply sp_bind with (Q1 := fun _ => True); [apply sp_free; auto|nia|intros _ _].
    eapply sp_bind with (Q1 := fun _ => True); [apply sp_free; auto|nia|intros _ _].
    eapply sp_bind with (Q1 := fun b => digit_ok b); [apply sp_free; intros a; apply at_digit; auto|nia|intros bi Hb].
    destruct (set_first cur rem bi Cc Nc Vc ltac:(lia) Hb) as [cb [E1 [W1 [T1 V1]]]].
    eapply sp_bind with (Q1 := fun c => c = cb); [apply sp_free; rewrite E1; congruence|nia|intros c ->].
    set (cu := mkInt cb (negative cur)) in *. assert (Nu : nonneg cu) by exact Nc. assert (Vu : aval cu = B * rem + bi) by exact V1. unfold digit_ok in Hb.
    assert (Lc : len (bins cu) <= m + 1) by (apply (cur_len X (size xn)); auto; lia).
    eapply sp_bind with (Q1 := fun c => c = cmp_bins xn cu); [|nia|intros c ->].
    { destruct (cmp_bins_sp xn cu (m + 1)) as [H1 _]; [fold m; lia|auto|]. split; [exact H1|]. intros a E. injection E as <-. reflexivity. }
    rewrite cmp_bins_spec by assumption. fold X. pose proof (aval_nonneg cu W1) as Au.
    destruct (Z.leb_spec (Z.sgn (X - aval cu)) 0).
    + destruct (quotient_and_remainder_ok cu xn r) as [r1 [E2 [C2 [N2 V2]]]]; auto; try (fold X; lia). fold X in E2, V2.
      pose proof (Z.mod_pos_bound (aval cu) X Px) as Mo.
      assert (0 < aval cu / X < B). { split; [apply Z.div_str_pos; lia|apply Z.div_lt_upper_bound; lia]. }
      apply (sp_weak _ ((one_bin m + (0 + (0 + 0))) + ((m + 3) + (K + len bs))) _ (fun l => len l <= len bs)); [|lia|auto].
      eapply sp_bind with (Q1 := fun st => exists bs', Forall digit_ok bs' /\ len bs' = len bs /\ st = (bs', r1, r1)); [|nia|].
      * eapply sp_bind with (Q1 := fun p => p = (aval cu / X, r1)); [|nia|].
        { split; [apply qr_sp; auto; fold X; lia|]. rewrite qr_e, E2. congruence. }
        intros p ->. cbn [fst snd]. eapply sp_bind with (Q1 := fun _ => True); [apply sp_free; auto|lia|intros _ _].
        eapply sp_bind with (Q1 := fun l => Forall digit_ok l /\ len l = len bs); [apply sp_free; intros a; apply set_digits; auto; unfold digit_ok; lia|lia|].
        intros l [D1 L1]. apply sp_ok. eauto.
      * intros st (bs' & D' & L' & ->). destruct (next_current r1 ltac:(auto) ltac:(auto) N2) as [C3 [N3 V3]].
        eapply sp_bind with (Q1 := fun c => c = clean_bins (Int_shifted r1 1)); [|nia|].
        { assert (L1 : len (bins r1) <= m + 1) by (apply (cur_len X (size xn)); auto; lia).
          destruct (clean_bins_sp (Int_shifted r1 1) (m + 2)) as [H1 _]; [cbn [Int_shifted bins]; rewrite len_app, len_repeat; lia|].
          split; [cbn [lap snd]; lia|]. intros a E. injection E as <-. reflexivity. }
        intros c ->. rewrite <- L'. apply (IH bs' r1 _ (aval cu mod X)); auto; lia.
    + apply (sp_weak _ (0 + ((m + 3) + (K + len bs))) _ (fun l => len l <= len bs)); [|lia|auto].
      destruct (next_current cu W1 T1 Nu) as [C3 [N3 V3]]. assert (aval cu < X) by lia.
      (* the bins dropped by cleanBins are paid for by the length of bs *)
      destruct (set_nth bs i 0) as [bs'| | | |] eqn:Es.
      2: { apply (sp_weak _ 0 _ (fun _ => False)); [split; [cbn; lia|cbn; discriminate]|nia|tauto]. }
      2-4: apply (sp_weak _ 0 _ (fun _ => False)); [split; [cbn; lia|cbn; discriminate]|nia|tauto].
      destruct (set_digits bs i 0 bs' D digit_ok_0 Es) as [D' L']. destruct (clean_len bs') as [CL _].
      unfold clean_c, free. cbn [cbind fst snd].
      assert (IH' := IH (clean_list bs') r (clean_bins (Int_shifted cu 1)) (aval cu) (clean_digits bs' D') C3 N3 V3 ltac:(lia)).
      destruct (clean_bins_sp (Int_shifted cu 1) (m + 2)) as [H1 _]; [cbn [Int_shifted bins]; rewrite len_app, len_repeat; lia|].
      destruct IH' as [I1 I2]. unfold spends. unfold clean_bins_c, clean_c, lap, free in *. cbn [cbind fst snd] in *. fold (clean_bins (Int_shifted cu 1)) in *. split.
      * fold K in I1. lia.
      * intros a E. specialize (I2 a E). cbv beta in I2. lia.
Qed.
Lemma divide_sp x y : wf x -> wf y -> let n := len (bins x) in let m := len (bins y) in
  spends (divide_c x y) (n * round m + 2 * n + 4 * m) (fun r => len (bins r) <= n).
Proof.
  intros Hx Hy n m. assert (M : 1 <= m) by (unfold m; pose proof (size_pos y Hy); unfold size, len in *; lia).
  assert (N : 1 <= n) by (unfold n; pose proof (size_pos x Hx); unfold size, len in *; lia).
  assert (OB : 0 <= round m) by (unfold round, one_bin; nia). assert (OB' : 0 <= n * round m) by nia.
  apply (sp_weak _ (m + ((n + m) + (2 * m + (n * round m + n)))) _ (fun r => len (bins r) <= n)); [|lia|auto].
  unfold divide_c. eapply sp_bind with (Q1 := fun z => z = (aval y =? 0)); [|nia|].
  { destruct (equals_sp y 0 m M ltac:(unfold m; lia)) as [H _]. split; [exact H|]. rewrite equals_e, equals_int32_0 by auto. congruence. }
  intros z ->. destruct (Z.eqb_spec (aval y) 0) as [E|E]; [apply (sp_weak _ 0 _ (fun _ => False)); [split; [cbn; lia|cbn; discriminate]|nia|tauto]|].
  eapply sp_bind with (Q1 := fun c => True); [|nia|].
  { destruct (cmp_bins_sp x y (n + m)) as [H _]; [fold n; lia|fold m; lia|]. split; [exact H|]. auto. }
  intros c _. destruct (c <? 0).
  { eapply sp_weak; [apply sp_free; intros a Ha; exact Ha|nia|]. cbv beta. intros a Ha. injection Ha as <-. cbn. lia. }
  assert (X1 : spends (if negative y then op_neg_c y else copy_c y) (2 * m) (fun xn => wf xn /\ nonneg xn /\ bins xn = bins y)).
  { destruct (negative y) eqn:Ny.
    - destruct (op_neg_sp y m M ltac:(unfold m; lia)) as [H _]. split; [exact H|]. rewrite op_neg_e.
      destruct (op_neg_nonneg y Hy Ny) as [r [E1 [W [Nn [V Bb]]]]]. rewrite E1. intros a Ha. injection Ha as <-. auto.
    - eapply sp_weak; [apply (copy_sp y m); unfold m; lia|lia|]. intros a <-. auto. }
  eapply sp_bind; [exact X1|nia|]. intros xn (W & Nn & Bx). assert (Ax : aval xn = aval y) by (apply aval_bins; auto).
  eapply sp_weak; [eapply (sp_bind _ _ (n * round m + n) 0) with (Q1 := fun l => len l <= n)|lia|exact (fun a H => H)]; [|lia|].
  - pose proof (aval_nonneg y Hy) as Py. assert (G := div_loop_sp xn W Nn ltac:(lia) (size x) (bins x) Int_default Int_default 0 ltac:(apply Hx) Int_default_canonical eq_refl eq_refl ltac:(lia)).
    rewrite Bx in G. fold m n in G. unfold size in *. fold (len (bins x)) in G. fold n in G. exact G.
  - intros l Hl. apply sp_ok. exact Hl.
Qed.
Lemma op_div_sp x y : wf x -> wf y -> let n := len (bins x) in let m := len (bins y) in
  spends (op_div_c x y) (n * round m + 3 * n + 4 * m) (fun r => len (bins r) <= n).
Proof.
  intros Hx Hy n m. pose proof (len_nonneg (bins x)) as Ln. pose proof (len_nonneg (bins y)) as Lm. fold n in Ln. fold m in Lm.
  assert (OB : 0 <= n * round m) by (unfold round, one_bin; nia). unfold op_div_c.
  eapply sp_weak; [eapply (sp_bind _ _ n (n * round m + 2 * n + 4 * m)); [apply copy_sp; unfold n; lia|lia|]|lia|exact (fun a H => H)].
  intros r <-. apply divide_sp; auto.
Qed.
Lemma div_assign_sp x o : wf x -> wf (rd x o) -> let n := len (bins x) in let m := len (bins (rd x o)) in
  spends (div_assign_c x o) (n * round m + 2 * n + 5 * m) (fun r => len (bins r) <= n).
Proof.
  intros Hx Hy n m. pose proof (len_nonneg (bins x)) as Ln. pose proof (len_nonneg (bins (rd x o))) as Lm. fold n in Ln. fold m in Lm.
  assert (OB : 0 <= n * round m) by (unfold round, one_bin; nia). unfold div_assign_c.
  eapply sp_weak; [eapply (sp_bind _ _ m (n * round m + 2 * n + 4 * m)); [apply copy_sp; unfold m; lia|lia|]|lia|exact (fun a H => H)].
  intros r <-. apply divide_sp; auto.
Qed.

(** From below: every bin of the quotient that is not zero has taken 29 trials. *)
Lemma free_pos {A} (m : res A) : 0 <= snd (free m). Proof. cbn. lia. Qed.
Lemma lap_pos {A} (m : counted A) : 0 <= snd m -> 0 <= snd (lap m). Proof. cbn. lia. Qed.
Create HintDb pos.
#[local] Hint Resolve free_pos equals_pos negate_pos of_int64_pos add_carry_pos push_pos : pos.
Ltac pos := repeat first [solve [auto 1 with pos nocore]|apply cbind_pos; [|intros ?]|apply lap_pos|match goal with |- 0 <= snd (if ?b then _ else _) => destruct b | |- 0 <= snd (match ?l with nil => _ | cons _ _ => _ end) => destruct l end].
Lemma copy_pos x : 0 <= snd (copy_c x). Proof. apply len_nonneg. Qed.
Lemma clean_pos l : 0 <= snd (clean_c l). Proof. cbn. pose proof (clean_len l). lia. Qed.
Lemma cmp_bins_pos u v : 0 <= snd (cmp_bins_c u v).
Proof.
  unfold cmp_bins_c, cmp_bins_rounds. cbn [snd]. destruct (_ <? _)%nat; destruct (existsb _ _);
    match goal with |- 0 <= zero_run ?a + 0 => pose proof (zero_run_pos a); lia | |- 0 <= zero_run ?a + cmp_rounds ?b ?c => pose proof (zero_run_pos a); pose proof (cmp_rounds_le b c); lia end.
Qed.
#[local] Hint Resolve copy_pos clean_pos cmp_bins_pos : pos.
Lemma op_neg_pos x : 0 <= snd (op_neg_c x). Proof. unfold op_neg_c. pos. Qed.
Lemma cmp_pos x y : 0 <= snd (cmp_c x y). Proof. unfold cmp_c. pos. Qed.
#[local] Hint Resolve op_neg_pos cmp_pos : pos.
Lemma lt_pos x y : 0 <= snd (lt_c x y). Proof. unfold lt_c. pos. Qed.
Lemma le_pos x y : 0 <= snd (le_c x y). Proof. unfold le_c. pos. Qed.
Lemma gt_pos x y : 0 <= snd (gt_c x y). Proof. unfold gt_c. pos. Qed.
Lemma ge_pos x y : 0 <= snd (ge_c x y). Proof. unfold ge_c. pos. Qed.
#[local] Hint Resolve lt_pos le_pos gt_pos ge_pos : pos.
Lemma abs_pos x : 0 <= snd (abs_c x). Proof. unfold abs_c. pos. Qed.
Lemma sub_borrow_pos l : forall c, 0 <= snd (sub_borrow_c l c).
Proof. induction l as [|b l IH]; intros c; cbn [sub_borrow_c]; pos. Qed.
#[local] Hint Resolve abs_pos sub_borrow_pos : pos.
Lemma sub_loop_pos xs : forall l c, 0 <= snd (sub_loop_c l xs c).
Proof. induction xs as [|b xs IH]; intros l c; cbn [sub_loop_c]; pos. Qed.
Lemma add_loop_pos xs : forall l c, 0 <= snd (add_loop_c l xs c).
Proof. induction xs as [|b xs IH]; intros l c; cbn [add_loop_c]; pos. Qed.
#[local] Hint Resolve sub_loop_pos add_loop_pos : pos.
Lemma subtract_pos x y : 0 <= snd (subtract_c x y). Proof. unfold subtract_c. pos. Qed.
Lemma add_pos x y : 0 <= snd (add_c x y). Proof. unfold add_c. pos. Qed.
Lemma clean_bins_pos x : 0 <= snd (clean_bins_c x). Proof. unfold clean_bins_c. pos. Qed.
#[local] Hint Resolve subtract_pos add_pos clean_bins_pos : pos.
Lemma addsub_pos f : forall s x y, 0 <= snd (addsub_c f s x y).
Proof. induction f as [|f IH]; intros s x y; cbn [addsub_c]; pos. Qed.
Lemma addsub_assign_pos f : forall s x o, 0 <= snd (addsub_assign_c f s x o).
Proof. induction f as [|f IH]; intros s x y; cbn [addsub_assign_c]; pos. Qed.
#[local] Hint Resolve addsub_pos addsub_assign_pos : pos.
Lemma mbi_loop_pos xs : forall y i r, 0 <= snd (mbi_loop_c xs y i r).
Proof. induction xs as [|b xs IH]; intros y i r; cbn [mbi_loop_c]; unfold add_assign_c; pos. Qed.
#[local] Hint Resolve mbi_loop_pos : pos.
Lemma mbi_pos x y : 0 <= snd (multiply_by_int_c x y). Proof. unfold multiply_by_int_c. pos. Qed.
Lemma shifted_pos x i : 0 <= snd (shifted_c x i). Proof. apply len_nonneg. Qed.
#[local] Hint Resolve mbi_pos shifted_pos : pos.
Lemma mul_loop_pos x ys : forall i r, 0 <= snd (mul_loop_c x ys i r).
Proof. induction ys as [|b ys IH]; intros i r; cbn [mul_loop_c]; unfold add_assign_c; pos. Qed.
#[local] Hint Resolve mul_loop_pos : pos.
Lemma op_mul_pos x y : 0 <= snd (op_mul_c x y). Proof. unfold op_mul_c, multiply_c. pos. Qed.
#[local] Hint Resolve op_mul_pos : pos.
Lemma co_pos {A} (m : counted A) : 0 <= snd m -> costs m 0 (fun _ => True). Proof. intros H a E. auto. Qed.
Lemma iter_co y x : no_zero (bins x) -> forall f b step, 0 <= b -> 0 < step ->
  costs (iter_quotient_c f y x b step) (len (bins x) * (len (bins x) + 2)) (fun p => b <= fst p).
Proof.
  intros Dx. set (W := len (bins x) * (len (bins x) + 2)). assert (PW : 0 <= W) by (unfold W; pose proof (len_nonneg (bins x)); nia).
  induction f as [|f IH]; intros b step Hb Hs; [intros a E; discriminate E|]. cbn [iter_quotient_c].
  apply (co_weak _ (1 + (0 + (W + (0 + (0 + 0))))) _ (fun p => b <= fst p)); [|lia|auto]. apply co_lap.
  eapply co_bind with (Q1 := fun b' => b' = b + step /\ b' <= INT32_MAX); [apply co_free|].
  { intros a Ha. unfold i32 in Ha. destruct (in_int32 (b + step)) eqn:E; [|discriminate]. injection Ha as <-. unfold in_int32, INT32_MAX in *. lia. }
  intros b' [-> Hm]. eapply co_bind; [apply (mbi_co 3 x (b + step)); auto; try lia; change (pw 3) with (B * (B * B)); unfold INT32_MAX in Hm; lia|].
  intros p _. eapply co_bind; [apply co_pos, addsub_pos|]. intros r _. eapply co_bind; [apply co_pos; pos|].
  intros [] _; [eapply co_weak; [apply IH; lia|lia|cbv beta; lia]|]. apply co_free. intros a E. injection E as <-. cbn. lia.
Qed.
Lemma qr_loop_co y x : no_zero (bins x) -> forall h fuel step q r, 0 <= q -> 2 ^ Z.of_nat h <= step ->
  costs (qr_loop_c fuel y x step q r) (Z.of_nat h * (len (bins x) * (len (bins x) + 2))) (fun _ => True).
Proof.
  intros Dx. set (W := len (bins x) * (len (bins x) + 2)). assert (PW : 0 <= W) by (unfold W; pose proof (len_nonneg (bins x)); nia).
  assert (POS : forall fuel step q r, 0 <= q -> 0 < step -> costs (qr_loop_c fuel y x step q r) 0 (fun _ => True)).
  { induction fuel as [|f IH]; intros step q r Hq Hs; [intros a E; discriminate E|]. cbn [qr_loop_c]. destruct (Z.gtb_spec step 1); [|apply co_free; auto].
    assert (S2 : 0 < step ÷ 2). { rewrite Z.quot_div_nonneg by lia. ldiv. }
    apply (co_weak _ (1 + (W + 0)) _ (fun _ => True)); [|lia|auto]. apply co_lap. eapply co_bind; [apply iter_co; auto; lia|]. intros p Hp. cbv beta in Hp. apply IH; lia. }
  induction h as [|h IH]; intros fuel step q r Hq Hs.
  - apply POS; [auto|]. cbn in Hs. lia.
  - destruct fuel as [|f]; [intros a E; discriminate E|]. cbn [qr_loop_c]. rewrite Nat2Z.inj_succ, Z.pow_succ_r in Hs by lia.
    assert (P2 : 0 < 2 ^ Z.of_nat h) by (apply Z.pow_pos_nonneg; lia). destruct (Z.gtb_spec step 1); [|lia].
    assert (S2 : 2 ^ Z.of_nat h <= step ÷ 2). { rewrite Z.quot_div_nonneg by lia. apply Z.div_le_lower_bound; lia. }
    apply (co_weak _ (1 + (W + Z.of_nat h * W)) _ (fun _ => True)); [|lia|auto]. apply co_lap. eapply co_bind; [apply iter_co; auto; lia|]. intros p Hp. cbv beta in Hp. apply IH; lia.
Qed.

Lemma qr_co y x r : no_zero (bins x) -> costs (quotient_and_remainder_c y x r) (29 * (len (bins x) * (len (bins x) + 2))) (fun _ => True).
Proof.
  intros Dx. set (W := len (bins x) * (len (bins x) + 2)).
  apply (co_weak _ (0 + (0 + (0 + (0 + (0 + (29 * W + (0 + 0))))))) _ (fun _ => True)); [|lia|auto]. unfold quotient_and_remainder_c.
  eapply co_bind; [apply co_pos; pos|intros _ _]. eapply co_bind; [apply co_pos; pos|intros _ _]. eapply co_bind; [apply co_pos; pos|intros le _].
  eapply co_bind; [apply co_pos; pos|intros lt _]. eapply co_bind; [apply co_pos; pos|intros _ _].
  eapply co_bind; [apply (qr_loop_co y x Dx 29 32 BIN_LIMIT 0 r); unfold BIN_LIMIT; cbn; lia|intros qr _].
  eapply co_bind; [apply co_pos; pos|intros q _]. apply co_pos. pos.
Qed.
Fixpoint nonzeros (l : list Z) : Z := match l with [] => 0 | b :: l' => (if b =? 0 then 0 else 1) + nonzeros l' end.
Lemma nonzeros_pos l : 0 <= nonzeros l. Proof. induction l as [|b l IH]; cbn; [lia|]. destruct (b =? 0); lia. Qed.
Lemma nonzeros_app a b : nonzeros (a ++ b) = nonzeros a + nonzeros b. Proof. induction a as [|x a IH]; cbn; lia. Qed.
Lemma set_skipn bs : forall i v r, set_nth bs i v = Ok r -> skipn i r = v :: skipn (S i) bs.
Proof.
  induction bs as [|b bs IH]; intros i v r E; [destruct i; discriminate|]. destruct i as [|i]; cbn [set_nth] in E.
  - injection E as <-. reflexivity.
  - destruct (set_nth bs i v) as [l| | | |] eqn:E1; try discriminate. cbn in E. injection E as <-. cbn [skipn]. rewrite (IH i v l E1). reflexivity.
Qed.
Lemma drop_zeros_suffix r : exists t, r = t ++ drop_zeros r.
Proof.
  induction r as [|b r [t IH]]; [exists []; reflexivity|]. cbn [drop_zeros]. destruct r as [|c r]; [exists []; reflexivity|].
  destruct (b =? 0); [|exists []; reflexivity]. exists (b :: t). cbn [app]. rewrite <- IH. reflexivity.
Qed.
Lemma clean_prefix l : exists t, l = clean_list l ++ t.
Proof. unfold clean_list. destruct (drop_zeros_suffix (rev l)) as [t H]. exists (rev t). rewrite <- rev_app_distr, <- H, rev_involutive. reflexivity. Qed.
Lemma clean_nonzeros l i : nonzeros (skipn i (clean_list l)) <= nonzeros (skipn i l).
Proof. destruct (clean_prefix l) as [t H]. rewrite H at 2. rewrite skipn_app, nonzeros_app. pose proof (nonzeros_pos (skipn (i - length (clean_list l)) t)). lia. Qed.
Lemma div_loop_co xn : no_zero (bins xn) -> forall k bs r cur, let W := 29 * (len (bins xn) * (len (bins xn) + 2)) in
  forall l, fst (div_loop_c k xn bs r cur) = Ok l -> W * nonzeros l <= snd (div_loop_c k xn bs r cur) + W * nonzeros (skipn k bs).
Proof.
  intros Dx k bs r cur W. assert (PW : 0 <= W) by (unfold W; pose proof (len_nonneg (bins xn)); nia).
  assert (HQ : forall cu r, costs (quotient_and_remainder_c cu xn r) W (fun _ => True)) by (intros; apply qr_co, Dx). clearbody W. revert bs r cur.
  induction k as [|i IH]; intros bs r cur l E; cbn [div_loop_c] in *.
  - injection E as <-. cbn. lia.
  - unfold lap in *. cbn [fst snd] in *. do 4 (apply exact_cbind in E; destruct E as (? & _ & E & ->)). apply exact_cbind in E. destruct E as (c & _ & E & ->).
    set (cu := mkInt _ _) in *. pose proof (cmp_bins_pos xn cu) as P1. cbn [free snd]. apply exact_cbind in E. destruct E as ([[bs1 r1] c1] & E1 & E & ->).
    apply exact_cbind in E. destruct E as (c2 & _ & E & ->). cbn [fst snd] in *. pose proof (clean_bins_pos (Int_shifted c1 1)) as P2. specialize (IH _ _ _ _ E).
    match goal with |- context [snd (if c <=? 0 then ?p else ?q)] => set (st := if c <=? 0 then p else q) in * end.
    assert (S1 : W * nonzeros (skipn i bs1) <= snd st + W * nonzeros (skipn (S i) bs)); [|lia].
    clear IH E. unfold st in *. clear st. destruct (c <=? 0).
    + apply exact_cbind in E1. destruct E1 as (q & Eq & E1 & ->). destruct (HQ cu r q Eq) as [C _].
      apply exact_cbind in E1. destruct E1 as (? & _ & E1 & ->). apply exact_cbind in E1. destruct E1 as (b' & Es & E1 & ->). cbn in Es, E1. injection E1 as -> _ _.
      rewrite (set_skipn _ _ _ _ Es). cbn [nonzeros free snd]. destruct (_ =? 0); nia.
    + apply exact_cbind in E1. destruct E1 as (b' & Es & E1 & ->). cbn in Es, E1. injection E1 as <- _ _.
      assert (H1 := clean_nonzeros b' i). rewrite (set_skipn _ _ _ _ Es) in H1. cbn [nonzeros] in H1. change (0 =? 0) with true in H1. cbv iota in H1.
      assert (H2 := clean_pos b'). cbn [cbind free snd] in *. unfold clean_c in *. cbn [cbind fst snd free] in *.
      assert (H3 := Z.mul_le_mono_nonneg_l _ _ W PW H1). lia.
Qed.
Lemma divide_co x y : no_zero (bins y) -> forall r, fst (divide_c x y) = Ok r -> (29 * (len (bins y) * (len (bins y) + 2))) * nonzeros (bins r) <= snd (divide_c x y).
Proof.
  intros Dy r E. set (W := 29 * (len (bins y) * (len (bins y) + 2))). assert (PW : 0 <= W) by (unfold W; pose proof (len_nonneg (bins y)); nia).
  unfold divide_c in *. apply exact_cbind in E. destruct E as (z & _ & E & ->). pose proof (equals_pos y 0) as P1. destruct z; [discriminate E|].
  apply exact_cbind in E. destruct E as (c & _ & E & ->). pose proof (cmp_bins_pos x y) as P2. destruct (c <? 0).
  - injection E as <-. cbn [nonzeros bins free snd]. change (0 =? 0) with true. cbn iota. lia.
  - apply exact_cbind in E. destruct E as (xn & E1 & E & ->). assert (P3 : 0 <= snd (if negative y then op_neg_c y else copy_c y)) by pos.
    assert (Bx : bins xn = bins y).
    { destruct (negative y); [|injection E1 as <-; reflexivity]. unfold op_neg_c, copy_c, negate_c in E1. cbn [cbind fst] in E1. apply exact_cbind in E1. destruct E1 as (z & _ & E1 & _). injection E1 as <-. reflexivity. }
    apply exact_cbind in E. destruct E as (bs & E2 & E & ->). cbn in E. injection E as <-. cbn [bins free snd].
    assert (G := div_loop_co xn ltac:(rewrite Bx; exact Dy) (size x) (bins x) Int_default Int_default bs E2). rewrite Bx in G. fold W in G.
    unfold size in *. rewrite skipn_all in G. cbn [nonzeros] in G. clearbody W.
    match goal with |- _ <= ?a + (?b + (?c + (?d + 0))) => assert (0 <= a) by exact P1; assert (0 <= b) by exact P2; assert (0 <= c) by exact P3; assert (W * nonzeros bs <= d + W * 0) by exact G; lia end.
Qed.

Lemma op_div_co x y : no_zero (bins y) -> forall r, fst (op_div_c x y) = Ok r -> (29 * (len (bins y) * (len (bins y) + 2))) * nonzeros (bins r) <= snd (op_div_c x y).
Proof.
  intros Dy r E. unfold op_div_c in *. apply exact_cbind in E. destruct E as (z & E1 & E & ->). injection E1 as <-. apply (divide_co _ _ Dy) in E. pose proof (copy_pos x) as P. lia.
Qed.

Definition remainder_rounds (n m : Z) : Z :=
  let N := Z.max n m in n * round m + m * (N * N + 8 * N + m + 6) + N + 58 * n + 60 * m + 135.
Lemma op_mod_sp x y : wf x -> wf y -> spends (op_mod_c x y) (remainder_rounds (len (bins x)) (len (bins y))) (fun _ => True).
Proof.
  intros Hx Hy. set (n := len (bins x)). set (m := len (bins y)).
  assert (M : 1 <= m) by (unfold m; pose proof (size_pos y Hy); unfold size, len in *; lia).
  assert (N : 1 <= n) by (unfold n; pose proof (size_pos x Hx); unfold size, len in *; lia).
  assert (OB : 0 <= round m) by (unfold round, one_bin; nia). assert (OB' : 0 <= n * round m) by nia.
  set (N' := Z.max n m). set (K := n + m + 2). set (mc := m * (N' * N' + 8 * N' + m + 6)). assert (MC : 0 <= mc) by (unfold mc; nia).
  apply (sp_weak _ (n + (m + (n + (m + ((n * round m + 3 * n + 4 * m) + ((mc + (N' + m + 2)) + (26 * K + ((K + 1) + 26 * (K + 1))))))))) _ (fun _ => True));
    [|unfold remainder_rounds, K; fold N' mc; lia|auto].
  unfold op_mod_c.
  eapply sp_bind; [apply copy_sp; unfold n; lia|lia|intros x' <-]. eapply sp_bind; [apply copy_sp; unfold m; lia|lia|intros y' <-].
  assert (NG : forall z k, wf z -> 1 <= k -> len (bins z) <= k -> spends (if negative z then negate_c z else free (Ok z)) k (fun r => bins r = bins z /\ wf r)).
  { intros z k Hz K1 Kz. destruct (negative z).
    - eapply sp_weak; [apply (negate_sp z k); auto|lia|]. intros r [Br _]. split; [exact Br|]. unfold wf in *. rewrite Br. exact Hz.
    - apply sp_weak with (k := 0) (Q := fun r => bins r = bins z /\ wf r); [apply sp_ok; auto|lia|auto]. }
  eapply sp_bind; [apply (NG x n); auto; unfold n; lia|lia|intros a (Ba & Wa)]. eapply sp_bind; [apply (NG y m); auto; unfold m; lia|lia|intros b (Bb & Wb)].
  assert (DV : spends (op_div_c a b) (n * round m + 3 * n + 4 * m) (fun q => wf q /\ len (bins q) <= n)).
  { destruct (op_div_sp a b Wa Wb) as [D1 D2]. rewrite Ba, Bb in D1. rewrite Ba in D2. fold n m in D1. fold n in D2. split; [exact D1|]. intros q Eq. split; [|exact (D2 q Eq)].
    rewrite op_div_e in Eq. unfold op_div in Eq. destruct (divide_gen a b Wa Wb) as [(_ & E)|[(_ & _ & E)|(_ & _ & [(_ & E)|(_ & r & E & C & _)])]]; rewrite E in Eq; try discriminate; injection Eq as <-.
    - apply Int_default_canonical.
    - apply C. }
  eapply sp_bind; [exact DV|unfold K; lia|intros q (Wq & Lq)].
  assert (ML : spends (op_mul_c q b) (mc + (N' + m + 2)) (fun r => len (bins r) <= K)).
  { destruct (op_mul_sp q b Wq Wb) as [D1 D2]. rewrite Bb in D1, D2. fold m in D1, D2. pose proof (len_nonneg (bins q)) as Pq. split.
    - eapply Z.le_trans; [exact D1|]. set (n1 := Z.max (len (bins q)) m). set (m1 := Z.min (len (bins q)) m).
      assert (n1 <= N') by (unfold n1, N'; lia). assert (0 <= m1 <= m) by (unfold m1; lia). assert (0 <= n1) by (unfold n1; lia).
      assert (m1 * (n1 * n1 + 8 * n1 + m1 + 6) <= mc); [|lia]. unfold mc. apply Z.mul_le_mono_nonneg; nia.
    - intros r Er. specialize (D2 r Er). cbv beta in D2. unfold K. lia. }
  eapply sp_bind; [exact ML|unfold K; lia|intros r Hr]. cbv beta in Hr.
  eapply sp_bind; [apply (addsub_sp _ _ a r K); auto; rewrite ?Ba; fold n; unfold K; lia|unfold K; lia|intros d Hd]. unfold fits in Hd.
  eapply sp_bind; [apply (equals_sp d 0 (K + 1)); auto; unfold K; lia|unfold K; lia|intros z _].
  destruct z; [apply sp_weak with (k := 0) (Q := fun _ => True); [apply sp_ok; auto|unfold K; lia|auto]|].
  destruct (negative x && negative y); [eapply sp_weak; [apply (negate_sp d (K + 1)); auto; unfold K; lia|unfold K; lia|auto]|].
  destruct (negb (negative x) && negative y); [eapply sp_weak; [apply (addsub_assign_sp _ _ d (Some y) (K + 1)); cbn [rd]; auto; fold m; unfold K; lia|unfold K; lia|auto]|].
  destruct (negative x && negb (negative y)); [eapply sp_weak; [apply (addsub_sp _ _ y d (K + 1)); auto; fold m; unfold K; lia|unfold K; lia|auto]|].
  apply sp_weak with (k := 0) (Q := fun _ => True); [apply sp_ok; auto|unfold K; lia|auto].
Qed.
