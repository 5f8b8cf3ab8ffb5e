(** Division: quotient search, long division loop, exact failure domain. *)
From Verif Require Import Base IntModel IntSpec IntBasics IntAddSub IntMul.
From Coq Require Import ZifyBool.

(** iter_quotient: the first multiple b' = b + n*step with b' >= Q *)
Lemma iter_quotient_spec y x (Q : Z) :
  wf x -> wf y -> trimmed (bins y) -> nonneg y -> 0 < aval x -> Q = aval y / aval x -> Q < B ->
  forall fuel b step, 0 <= b < Q -> 0 < step <= B -> Q <= b + step * Z.of_nat fuel ->
  exists q r, iter_quotient fuel y x b step = Ok (q, r) /\ b <= q < Q /\ Q <= q + step /\
     canonical r /\ val r = aval y - (q + step) * aval x.
Proof.
  intros Hx Hy Ty Ny Px EQ HQ. induction fuel as [|f IH]; intros b step Hb Hs Hf.
  - lia.
  - cbn [iter_quotient]. rewrite i32_ok by (unfold INT32_MIN, INT32_MAX; lia). cbn [bind].
    destruct (multiply_by_int_ok x (b + step) Hx ltac:(unfold INT32_MAX; lia)) as [p [E1 [C1 [N1 [V1 V1']]]]].
    rewrite E1. cbn [bind].
    destruct (op_sub_ok y p Hy ltac:(auto) Ty ltac:(auto)) as [r [E2 [C2 V2]]].
    rewrite E2. cbn [bind]. rewrite cmp_bins_spec by auto.
    rewrite V1', (val_nonneg_aval y Ny) in V2.
    assert (D : aval y = aval x * Q + aval y mod aval x) by (subst Q; apply Z.div_mod; lia).
    pose proof (Z.mod_pos_bound (aval y) (aval x) Px) as M.
    assert (Hc : (negb (negative r) && (Z.sgn (aval x - aval r) <=? 0)) = (b + step <? Q)).
    { rewrite (canonical_neg_eq r C2). pose proof (abs_val r ltac:(auto)) as A.
      destruct (Z.ltb_spec (b + step) Q).
      - assert (aval x * (b + step + 1) <= aval x * Q) by (apply Z.mul_le_mono_nonneg_l; lia).
        assert (val r >= aval x) by lia. assert (aval r = val r) by lia. lia.
      - assert (aval x * Q <= aval x * (b + step)) by (apply Z.mul_le_mono_nonneg_l; lia).
        assert (val r < aval x) by lia. lia. }
    rewrite Hc. destruct (Z.ltb_spec (b + step) Q).
    + destruct (IH (b + step) step ltac:(lia) Hs ltac:(lia)) as [q [r' [E [H1 [H2 [H3 H4]]]]]].
      exists q, r'. splits; auto; lia.
    + exists b, r. splits; auto; lia.
Qed.

Lemma qr_loop_spec y x (Q : Z) :
  wf x -> wf y -> trimmed (bins y) -> nonneg y -> 0 < aval x -> Q = aval y / aval x -> Q < B ->
  forall fuel step q r, 0 <= q < Q -> 1 <= step <= B -> Q <= q + step -> step < 2 ^ Z.of_nat fuel ->
    (step = 1 -> canonical r /\ val r = aval y - (q + 1) * aval x) ->
  exists r', qr_loop fuel y x step q r = Ok (Q - 1, r') /\ canonical r' /\ val r' = aval y - Q * aval x.
Proof.
  intros Hx Hy Ty Ny Px EQ HQ. induction fuel as [|f IH]; intros step q r Hq Hs HQs Hf Hr.
  - cbn in Hf. lia.
  - cbn [qr_loop]. destruct (Z.gtb_spec step 1).
    + assert (S2 : step ÷ 2 = step / 2) by (apply Z.quot_div_nonneg; lia).
      assert (S3 : 0 < step / 2 /\ step / 2 * 2 <= step /\ step <= step / 2 * 2 + 1) by ldiv.
      rewrite S2. set (st := step / 2) in *. clearbody st.
      destruct (iter_quotient_spec y x Q Hx Hy Ty Ny Px EQ HQ ITER_FUEL q st Hq ltac:(lia)) as [q' [r' [E [H1 [H2 [H3 H4]]]]]].
      { unfold ITER_FUEL. lia. }
      rewrite E. cbn [bind fst snd].
      apply IH; try lia.
      * rewrite Nat2Z.inj_succ, Z.pow_succ_r in Hf by lia. lia.
      * intros ->. split; assumption.
    + assert (step = 1) by lia. subst step. destruct (Hr eq_refl) as [C V].
      assert (q = Q - 1) by lia. subst q. exists r. splits; auto. rewrite V. f_equal. f_equal. lia.
Qed.

Lemma quotient_and_remainder_ok y x r0 :
  wf x -> wf y -> trimmed (bins y) -> nonneg y -> nonneg x -> 0 < aval x -> aval x <= aval y -> aval y < B * aval x ->
  exists r, quotient_and_remainder y x r0 = Ok (aval y / aval x, r) /\ canonical r /\ nonneg r /\ aval r = aval y mod aval x.
Proof.
  intros Hx Hy Ty Ny Nx Px Hle Hlt. unfold quotient_and_remainder, is_negative.
  unfold nonneg in Nx, Ny. rewrite Nx, Ny. cbn [negb assert_ bind].
  rewrite op_le_spec by assumption. cbn [bind].
  rewrite (val_nonneg_aval x Nx), (val_nonneg_aval y Ny).
  replace (aval x <=? aval y) with true by lia.
  destruct (Int_of_int64_ok BIN_LIMIT 0) as [bl [E1 [V1 [C1 _]]]]; [unfold BIN_LIMIT, INT64_MIN, INT64_MAX; lia|].
  rewrite E1. cbn [bind]. destruct (op_mul_gen bl x ltac:(auto) Hx) as [bx [E2 [W2 [V2 _]]]].
  rewrite E2. cbn [bind]. rewrite op_lt_spec by assumption. cbn [bind].
  rewrite V2, V1, (val_nonneg_aval x Nx), (val_nonneg_aval y Ny), pw_0. unfold BIN_LIMIT.
  replace (aval y <? B * 1 * aval x) with true by lia. cbn [andb assert_ bind].
  set (Q := aval y / aval x).
  assert (HQ1 : 1 <= Q) by (apply Z.div_le_lower_bound; lia).
  assert (HQ2 : Q < B) by (apply Z.div_lt_upper_bound; lia).
  destruct (qr_loop_spec y x Q Hx Hy Ty Ny Px eq_refl HQ2 32 B 0 r0) as [r [E3 [C3 V3]]]; try lia.
  rewrite E3. cbn [bind fst snd]. rewrite i32_ok by (unfold INT32_MIN, INT32_MAX; lia). cbn [bind].
  pose proof (Z.div_mod (aval y) (aval x) ltac:(lia)) as D. fold Q in D.
  pose proof (Z.mod_pos_bound (aval y) (aval x) Px).
  assert (V : val r = aval y mod aval x) by lia.
  assert (N : nonneg r) by (unfold nonneg; rewrite (canonical_neg_eq r C3); lia).
  exists r. splits; auto.
  - f_equal. f_equal. lia.
  - rewrite <- val_nonneg_aval; assumption.
Qed.

(** bins.at(0) = v on a number that is a multiple of B *)
Lemma set_first c rem b : canonical c -> nonneg c -> aval c = B * rem -> 0 <= rem -> digit_ok b ->
  exists cb, set_nth (bins c) 0 b = Ok cb /\ wf (mkInt cb (negative c)) /\ trimmed cb /\
    bins_val cb = B * rem + b.
Proof.
  intros C N V Hr Hb. destruct c as [l n]. unfold nonneg, aval in *. cbn [bins negative] in *. subst n.
  destruct C as [[Hn Hd] [Ht _]]. cbn [bins] in *.
  destruct l as [|h l]; [congruence|]. cbn [set_nth]. inversion Hd as [|? ? Hh Hd']; subst.
  cbn [bins_val] in V. unfold digit_ok in Hh, Hb. assert (h = 0 /\ bins_val l = rem) as [-> Hl] by lia.
  eexists; split; [reflexivity|]. splits.
  - split; cbn [bins]; [discriminate|]. constructor; assumption.
  - destruct l as [|a l]; [apply trimmed_single|].
    split; [discriminate|]. intros _. destruct Ht as [_ Ht]. apply Ht. cbn. lia.
  - cbn [bins_val]. lia.
Qed.

(** current.shift(1); current.cleanBins() *)
Lemma next_current c : wf c -> trimmed (bins c) -> nonneg c ->
  canonical (clean_bins (Int_shifted c 1)) /\ nonneg (clean_bins (Int_shifted c 1)) /\
  aval (clean_bins (Int_shifted c 1)) = B * aval c.
Proof.
  intros W T N. destruct (Int_shifted_spec c 1 W) as [Ws [_ [_ Vs]]].
  destruct (clean_bins_wf _ Ws) as [W1 [T1 [_ V1]]].
  assert (nonneg (clean_bins (Int_shifted c 1))) by exact N.
  split; [apply nonneg_canonical; assumption|split; [assumption|]].
  rewrite V1, Vs. unfold pw. cbn. lia.
Qed.

Lemma at_snoc lo b : at_ (lo ++ [b]) (length lo) = Ok b.
Proof. unfold at_. rewrite nth_error_app2, Nat.sub_diag by lia. reflexivity. Qed.
Lemma at_mid lo b hi : at_ (lo ++ b :: hi) (length lo) = Ok b.
Proof. unfold at_. rewrite nth_error_app2, Nat.sub_diag by lia. reflexivity. Qed.
Lemma set_nth_mid lo b hi v : set_nth (lo ++ b :: hi) (length lo) v = Ok (lo ++ v :: hi).
Proof. induction lo; cbn; [reflexivity|]. rewrite IHlo. reflexivity. Qed.

Lemma last_app_ne (l1 l2 : list Z) : l2 <> [] -> last (l1 ++ l2) 0 = last l2 0.
Proof.
  intros H. destruct (exists_last H) as [l' [a ->]]. rewrite app_assoc, !last_last. reflexivity.
Qed.

Lemma trimmed_last_nz l : l <> [] -> last l 0 <> 0 -> trimmed l.
Proof. intros Hn H. split; auto. Qed.

(** arithmetic of one long-division step *)
Lemma div_step_arith rem bi X P lo : 0 < X -> 0 < P ->
  (rem * (B * P) + (lo + P * bi)) / X = P * ((B * rem + bi) / X) + ((B * rem + bi) mod X * P + lo) / X.
Proof.
  intros HX HP. pose proof (Z.div_mod (B * rem + bi) X ltac:(lia)) as D.
  replace (rem * (B * P) + (lo + P * bi)) with ((B * rem + bi) mod X * P + lo + P * ((B * rem + bi) / X) * X) by nia.
  rewrite Z.div_add by lia. lia.
Qed.

Section Loop.
Variables (xn : Int).
Hypothesis (Hx : wf xn) (Nx : nonneg xn) (Px : 0 < aval xn).
Let X := aval xn.

(* after the first non-zero quotient digit *)
Lemma div_loop_started : forall k lo hi r cur rem,
  length lo = k -> Forall digit_ok lo -> Forall digit_ok hi -> hi <> [] -> last hi 0 <> 0 ->
  canonical cur -> nonneg cur -> aval cur = B * rem -> 0 <= rem < X ->
  exists bs, div_loop k xn (lo ++ hi) r cur = Ok bs /\ Forall digit_ok bs /\ bs <> [] /\ last bs 0 <> 0 /\
    bins_val bs = pw k * bins_val hi + (rem * pw k + bins_val lo) / X.
Proof.
  induction k as [|i IH]; intros lo hi r cur rem Hl Dl Dh Hn Hz Cc Nc Vc Hr.
  - destruct lo; [|discriminate]. cbn [div_loop app]. exists hi. splits; auto.
    cbn [bins_val]. rewrite pw_0. rewrite Z.div_small by lia. lia.
  - destruct (exists_last (l := lo)) as [lo' [bi ->]]; [destruct lo; discriminate|].
    rewrite app_length in Hl. cbn [length] in Hl. assert (Hl' : length lo' = i) by lia.
    apply Forall_app in Dl as [Dl' Db]. inversion Db as [|? ? Hb _]; subst.
    assert (Hb' := Hb). unfold digit_ok in Hb'.
    cbn [div_loop]. rewrite <- app_assoc. cbn [app].
    pose proof (size_pos cur ltac:(auto)) as Sc.
    replace (0 <? size cur)%nat with true by lia. cbn [assert_ bind].
    replace (length lo' <? length (lo' ++ bi :: hi))%nat with true by (rewrite app_length; cbn [length]; lia).
    cbn [assert_ bind]. rewrite at_mid. cbn [bind].
    destruct (set_first cur rem bi Cc Nc Vc ltac:(lia) Hb) as [cb [E1 [W1 [T1 V1]]]].
    rewrite E1. cbn [bind]. set (cu := mkInt cb (negative cur)) in *.
    assert (Nu : nonneg cu) by exact Nc.
    assert (Vu : aval cu = B * rem + bi) by exact V1.
    rewrite cmp_bins_spec by assumption. fold X.
    rewrite bins_val_app. cbn [bins_val]. replace (bi + B * 0) with bi by lia.
    rewrite pw_S. pose proof (pw_pos (length lo')) as PP.
    rewrite (div_step_arith rem bi X _ (bins_val lo') Px PP).
    destruct (Z.leb_spec (Z.sgn (X - aval cu)) 0).
    + destruct (quotient_and_remainder_ok cu xn r) as [r1 [E2 [C2 [N2 V2]]]]; auto; try (fold X; lia).
      rewrite E2. cbn [bind fst snd]. fold X.
      assert (0 < aval cu / X < B).
      { split; [apply Z.div_str_pos; lia|apply Z.div_lt_upper_bound; lia]. }
      replace (negb (aval cu / X =? 0)) with true by lia. cbn [assert_ bind].
      rewrite set_nth_mid. cbn [bind].
      destruct (next_current r1 ltac:(auto) ltac:(auto) N2) as [C3 [N3 V3]].
      pose proof (Z.mod_pos_bound (aval cu) X Px) as M. fold X in V2. 
      destruct (IH lo' (aval cu / X :: hi) r1 (clean_bins (Int_shifted r1 1)) (aval cu mod X) eq_refl Dl') as [bs [E [D [NB [LZ V]]]]]; auto; try lia.
      { constructor; [unfold digit_ok; lia|assumption]. }
      { discriminate. }
      { destruct hi; [congruence|exact Hz]. }
      exists bs. splits; auto. rewrite V. cbn [bins_val]. rewrite Vu. lia.
    + rewrite set_nth_mid. cbn [bind].
      rewrite clean_trimmed; [|apply trimmed_last_nz; [destruct lo'; discriminate|]; rewrite last_app_ne by discriminate; destruct hi; [congruence|exact Hz]].
      destruct (next_current cu W1 T1 Nu) as [C3 [N3 V3]].
      assert (aval cu < X) by lia.
      destruct (IH lo' (0 :: hi) r (clean_bins (Int_shifted cu 1)) (aval cu) eq_refl Dl') as [bs [E [D [NB [LZ V]]]]]; auto; try lia.
      { constructor; [apply digit_ok_0|assumption]. }
      { discriminate. }
      { destruct hi; [congruence|exact Hz]. }
      exists bs. splits; auto. rewrite V. cbn [bins_val]. rewrite <- Vu.
      rewrite (Z.div_small (aval cu) X), (Z.mod_small (aval cu) X) by lia. lia.
Qed.

(* the assertion "i < bins.size()" is going to fail: a zero digit below the
   leading one, not the last one, met before any quotient digit *)
Definition stuck_at (lo : list Z) (a : Z) (j : nat) : Prop :=
  (1 <= j)%nat /\ (j + 2 <= length lo)%nat /\ nth j lo 0 = 0 /\ a / pw (j + 1) < X.

Lemma div_loop_start : forall k lo r cur rem,
  length lo = k -> Forall digit_ok lo ->
  canonical cur -> nonneg cur -> aval cur = B * rem -> 0 <= rem < X ->
  let a := rem * pw k + bins_val lo in X <= a ->
  ((exists j, stuck_at lo a j) /\ div_loop k xn lo r cur = Abort) \/
  ((forall j, ~ stuck_at lo a j) /\ exists bs, div_loop k xn lo r cur = Ok bs /\ Forall digit_ok bs /\ bs <> [] /\ last bs 0 <> 0 /\
     bins_val bs = a / X).
Proof.
  induction k as [|i IH]; intros lo r cur rem Hl Dl Cc Nc Vc Hr a Ha.
  - destruct lo; [|discriminate]. subst a. cbn [bins_val] in Ha. rewrite pw_0 in Ha. lia.
  - destruct (exists_last (l := lo)) as [lo' [bi ->]]; [destruct lo; discriminate|].
    rewrite app_length in Hl. cbn [length] in Hl. assert (Hl' : length lo' = i) by lia.
    apply Forall_app in Dl as [Dl' Db]. inversion Db as [|? ? Hb _]; subst i; subst.
    assert (Hb' := Hb). unfold digit_ok in Hb'.
    cbn [div_loop].
    pose proof (size_pos cur ltac:(auto)) as Sc.
    replace (0 <? size cur)%nat with true by lia. cbn [assert_ bind].
    replace (length lo' <? length (lo' ++ [bi]))%nat with true by (rewrite app_length; cbn [length]; lia).
    cbn [assert_ bind]. rewrite at_mid. cbn [bind].
    destruct (set_first cur rem bi Cc Nc Vc ltac:(lia) Hb) as [cb [E1 [W1 [T1 V1]]]].
    rewrite E1. cbn [bind]. set (cu := mkInt cb (negative cur)) in *.
    assert (Nu : nonneg cu) by exact Nc.
    assert (Vu : aval cu = B * rem + bi) by exact V1.
    rewrite cmp_bins_spec by assumption. fold X.
    pose proof (pw_pos (length lo')) as PP.
    pose proof (bins_val_bound _ Dl') as Blo.
    assert (Ea : a = aval cu * pw (length lo') + bins_val lo').
    { subst a. rewrite bins_val_app, pw_S. cbn [bins_val]. rewrite Vu. lia. }
    assert (Ediv : a / pw (length lo') = aval cu).
    { rewrite Ea. rewrite Z.add_comm, Z.div_add by lia. rewrite Z.div_small by lia. lia. }
    pose proof (aval_nonneg cu W1) as Au.
    destruct (Z.leb_spec (Z.sgn (X - aval cu)) 0).
    + right. split.
      { intros j [J1 [J2 [J3 J4]]]. rewrite app_length in J2. cbn [length] in J2.
        assert (a / pw (length lo') <= a / pw (j + 1)).
        { apply Z.div_le_compat_l; [lia|]. split; [apply pw_pos|]. apply pw_le. lia. }
        lia. }
      destruct (quotient_and_remainder_ok cu xn r) as [r1 [E2 [C2 [N2 V2]]]]; auto; try (fold X; lia).
      rewrite E2. cbn [bind fst snd]. fold X.
      assert (0 < aval cu / X < B).
      { split; [apply Z.div_str_pos; lia|apply Z.div_lt_upper_bound; lia]. }
      replace (negb (aval cu / X =? 0)) with true by lia. cbn [assert_ bind].
      rewrite set_nth_mid. cbn [bind].
      destruct (next_current r1 ltac:(auto) ltac:(auto) N2) as [C3 [N3 V3]].
      pose proof (Z.mod_pos_bound (aval cu) X Px) as M. fold X in V2.
      destruct (div_loop_started (length lo') lo' [aval cu / X] r1 (clean_bins (Int_shifted r1 1)) (aval cu mod X) eq_refl Dl') as [bs [E [D [NB [LZ V]]]]]; auto; try lia.
      { constructor; [unfold digit_ok; lia|constructor]. }
      { discriminate. }
      { cbn [last]. lia. }
      exists bs. splits; auto. rewrite V. cbn [bins_val].
      subst a. rewrite bins_val_app. cbn [bins_val]. replace (bi + B * 0) with bi by lia.
      rewrite pw_S. rewrite (div_step_arith rem bi X _ (bins_val lo') Px PP). rewrite Vu. lia.
    + rewrite set_nth_mid. cbn [bind].
      destruct (next_current cu W1 T1 Nu) as [C3 [N3 V3]].
      assert (aval cu < X) by lia.
      (* lo' is not empty *)
      assert (lo' <> []).
      { intros ->. cbn [length bins_val] in *. rewrite pw_0 in *. lia. }
      destruct (clean_list_spec lo' Dl' H1) as [nz [K1 [K2 [K3 K4]]]].
      assert (Kc : clean_list (lo' ++ [0]) = clean_list lo').
      { unfold clean_list. rewrite rev_app_distr. cbn [rev app].
        destruct (rev lo') as [|z zs] eqn:Er; [|reflexivity].
        exfalso. apply H1. rewrite <- (rev_involutive lo'), Er. reflexivity. }
      rewrite Kc.
      destruct (trimmedb lo') eqn:Tb.
      * apply trimmedb_spec in Tb; [|assumption]. rewrite (clean_trimmed lo' Tb).
        destruct (IH lo' r _ (aval cu) eq_refl Dl' C3 N3 V3 ltac:(lia)) as [[[j Hj] Hab]|[Hns Hok]].
        { lia. }
        -- left. split; [|exact Hab]. exists j. destruct Hj as [J1 [J2 [J3 J4]]].
           rewrite <- Ea in J4. unfold stuck_at. splits; auto.
           ++ rewrite app_length. cbn. lia.
           ++ rewrite app_nth1 by lia. assumption.
        -- right. split.
           ++ intros j [J1 [J2 [J3 J4]]]. rewrite app_length in J2. cbn [length] in J2.
              rewrite app_nth1 in J3 by lia.
              destruct (Nat.eq_dec (j + 1) (length lo')) as [Ej|Ej].
              ** destruct Tb as [_ Tb]. apply Tb; [lia|]. rewrite (list_snoc lo' 0 H1) in J3.
                 rewrite app_nth2 in J3; rewrite (length_snoc lo' H1) in Ej; [|lia].
                 replace (j - length (removelast lo'))%nat with 0%nat in J3 by lia. exact J3.
              ** apply (Hns j). rewrite <- Ea. unfold stuck_at. splits; auto. lia.
           ++ destruct Hok as [bs [E [D [NB [LZ V]]]]]. rewrite <- Ea in V. exists bs. splits; auto.
      * left.
        assert (Hlen : (length lo' > 1)%nat /\ last lo' 0 = 0).
        { unfold trimmedb in Tb. split; [lia|]. destruct (Z.eqb_spec (last lo' 0) 0); [assumption|]. lia. }
        destruct Hlen as [Hl1 Hl2].
        split.
        -- exists (length lo' - 1)%nat. unfold stuck_at. splits.
           ++ lia.
           ++ rewrite app_length. cbn [length]. lia.
           ++ rewrite app_nth1 by lia. rewrite (list_snoc lo' 0 H1) at 2.
              rewrite app_nth2; rewrite (length_snoc lo' H1); [|lia].
              replace (S (length (removelast lo')) - 1 - length (removelast lo'))%nat with 0%nat by lia. exact Hl2.
           ++ replace (length lo' - 1 + 1)%nat with (length lo') by lia. lia.
        -- (* next round aborts *)
           assert (Hcl : (length (clean_list lo') < length lo')%nat).
           { rewrite K1 at 2. rewrite app_length, repeat_length. destruct nz; [|lia].
             cbn [repeat] in K1. rewrite app_nil_r in K1. rewrite K1 in Hl2, Hl1.
             destruct K2 as [_ K2]. exfalso. apply K2; [rewrite K1 in *; lia|]. exact Hl2. }
           destruct (length lo') as [|m] eqn:Em; [lia|]. cbn [div_loop].
           pose proof (size_pos _ (canonical_wf _ C3)) as Sc3.
           replace (0 <? size (clean_bins (Int_shifted cu 1)))%nat with true by lia. cbn [assert_ bind].
           replace (m <? length (clean_list lo'))%nat with false by lia. reflexivity.
Qed.
End Loop.

(** Int::divide *)
Definition stuck_div (l : list Z) (X : Z) : Prop :=
  exists j, (1 <= j)%nat /\ (j + 2 <= length l)%nat /\ nth j l 0 = 0 /\ bins_val l / pw (j + 1) < X.

Lemma divide_gen x y : wf x -> wf y ->
  (val y = 0 /\ divide x y = Throw DivideByZero) \/
  (val y <> 0 /\ aval x < aval y /\ divide x y = Ok (mkInt [0] false)) \/
  (val y <> 0 /\ aval y <= aval x /\
    ((stuck_div (bins x) (aval y) /\ divide x y = Abort) \/
     (~ stuck_div (bins x) (aval y) /\ exists r, divide x y = Ok r /\ canonical r /\ val r = Z.quot (val x) (val y)))).
Proof.
  intros Hx Hy. unfold divide. rewrite equals_int32_0 by assumption. cbn [bind].
  pose proof (abs_val x Hx) as Ax. pose proof (abs_val y Hy) as Ay. pose proof (aval_nonneg x Hx) as Px.
  destruct (Z.eqb_spec (aval y) 0) as [Ey|Ey]; [left; split; [lia|reflexivity]|right].
  rewrite cmp_bins_spec by assumption.
  destruct (Z.ltb_spec (Z.sgn (aval x - aval y)) 0); [left; splits; [lia|lia|reflexivity]|right].
  splits; [lia|lia|].
  assert (exists xn, (if negative y then op_neg y else Ok y) = Ok xn /\ wf xn /\ nonneg xn /\ aval xn = aval y) as [xn [E1 [W1 [N1 V1]]]].
  { destruct (negative y) eqn:Ny.
    - destruct (op_neg_nonneg y Hy Ny) as [r [E [W [N [V Bb]]]]]. exists r. splits; auto. apply aval_bins; assumption.
    - exists y. splits; auto. }
  rewrite E1. cbn [bind].
  destruct (div_loop_start xn W1 N1 ltac:(lia) (size x) (bins x) Int_default Int_default 0) as [[[j Hj] Hab]|[Hns [bs [E [D [NB [LZ V]]]]]]].
  { reflexivity. } { apply Hx. } { apply Int_default_canonical. } { reflexivity. } { reflexivity. } { lia. }
  { rewrite V1. unfold aval in *. lia. }
  - left. rewrite Hab. split; [|reflexivity]. exists j. destruct Hj as [J1 [J2 [J3 J4]]]. splits; auto.
    rewrite V1 in J4. replace (0 * pw (size x) + bins_val (bins x)) with (bins_val (bins x)) in J4 by lia. exact J4.
  - right. split.
    + intros [j [J1 [J2 [J3 J4]]]]. apply (Hns j). unfold stuck_at. splits; auto.
      rewrite V1. replace (0 * pw (size x) + bins_val (bins x)) with (bins_val (bins x)) by lia. exact J4.
    + rewrite E. cbn [bind]. eexists; split; [reflexivity|].
      rewrite V1 in V. replace (0 * pw (size x) + bins_val (bins x)) with (aval x) in V by (unfold aval; lia).
      assert (1 <= aval x / aval y) by (apply Z.div_le_lower_bound; lia).
      split.
      * apply mk_canonical; auto; [apply trimmed_last_nz; assumption|]. lia.
      * unfold val. cbn [bins negative]. rewrite V. fold (aval x). fold (aval y).
        rewrite <- Z.quot_div_nonneg by lia.
        destruct (negative x), (negative y); cbn [xorb];
          rewrite ?Z.quot_opp_opp, ?Z.quot_opp_l, ?Z.quot_opp_r by lia; reflexivity.
Qed.

(** the j-th digit of a numeral *)
Lemma nth_digit l : forall j, Forall digit_ok l -> nth j l 0 = (bins_val l / pw j) mod B.
Proof.
  induction l as [|b l IH]; intros j Hd.
  - cbn [bins_val]. rewrite Z.div_0_l by (pose proof (pw_pos j); lia). destruct j; reflexivity.
  - inversion Hd as [|? ? Hb Hd']; subst. unfold digit_ok in Hb. destruct j as [|j]; cbn [nth bins_val].
    + rewrite pw_0, Z.div_1_r. rewrite Z.add_comm, Z.mul_comm, Z.add_comm, Z.mod_add by lia.
      rewrite Z.mod_small; lia.
    + rewrite IH by assumption. rewrite pw_S. pose proof (pw_pos j).
      rewrite <- Z.div_div by lia. f_equal. f_equal.
      rewrite Z.add_comm, Z.mul_comm, Z.div_add_l by lia. rewrite Z.div_small by lia. lia.
Qed.

(* the finitely many positions can be searched *)
Lemma stuck_dec l b : forall n,
  (exists j, (1 <= j)%nat /\ (j + 2 <= n)%nat /\ nth j l 0 = 0 /\ bins_val l / pw (j + 1) < b) \/
  (forall j, (1 <= j)%nat -> (j + 2 <= n)%nat -> nth j l 0 = 0 -> ~ bins_val l / pw (j + 1) < b).
Proof.
  induction n as [|n [[j [J1 [J2 J3]]]|IH]].
  - right. intros. lia.
  - left. exists j. splits; try apply J3; lia.
  - destruct (le_lt_dec 3 (S n)) as [Hn|Hn].
    + destruct (Z.eq_dec (nth (n - 1) l 0) 0) as [E|E].
      * destruct (Z_lt_dec (bins_val l / pw (n - 1 + 1)) b).
        -- left. exists (n - 1)%nat. splits; auto; lia.
        -- right. intros j J1 J2 J3 J4. destruct (Nat.eq_dec j (n - 1)) as [->|]; [contradiction|].
           apply (IH j); auto; lia.
      * right. intros j J1 J2 J3 J4. destruct (Nat.eq_dec j (n - 1)) as [->|]; [contradiction|].
        apply (IH j); auto; lia.
    + right. intros. lia.
Qed.
Lemma stuck_none l b :
  (forall j, (1 <= j)%nat -> (j + 2 <= length l)%nat -> nth j l 0 = 0 -> ~ bins_val l / pw (j + 1) < b) ->
  ~ stuck_div l b.
Proof. intros H [j [J1 [J2 [J3 J4]]]]. exact (H j J1 J2 J3 J4). Qed.

Lemma stuck_div_safe x b : wf x -> trimmed (bins x) -> b <= aval x -> 
  stuck_div (bins x) b <-> ~ div_safe (aval x) b.
Proof.
  intros Hx Tx Hb. unfold stuck_div, div_safe. split.
  - intros [j [J1 [J2 [J3 J4]]]] [S|S]; [lia|].
    rewrite nth_digit in J3 by apply Hx.
    apply (S (Z.of_nat j)); try lia.
    + replace (B ^ (Z.of_nat j + 1)) with (pw (j + 1)) by (unfold pw; f_equal; lia).
      pose proof (trimmed_lower _ (proj2 Hx) Tx ltac:(lia)).
      pose proof (pw_le (j + 1) (length (bins x) - 1) ltac:(lia)). unfold aval. lia.
    + replace (B ^ (Z.of_nat j + 1)) with (pw (j + 1)) by (unfold pw; f_equal; lia). exact J4.
    + exact J3.
  - intros NS.
    destruct (stuck_dec (bins x) b (length (bins x))) as [[j J]|N].
    + exists j. exact J.
    + exfalso. apply NS. right. intros i I1 I2 I3 I4.
      set (j := Z.to_nat i).
      assert (Ei : B ^ (i + 1) = pw (j + 1)) by (unfold pw, j; f_equal; lia).
      assert (Ei0 : B ^ i = pw j) by (unfold pw, j; f_equal; lia).
      rewrite Ei in *. rewrite Ei0 in *. apply (N j); try lia.
      * pose proof (size_ge_of_aval x (j + 1) Hx I2). unfold size in *. lia.
      * rewrite nth_digit by apply Hx. exact I4.
      * exact I3.
Qed.

Lemma divide_safe x y : wf x -> trimmed (bins x) -> wf y -> val y <> 0 -> div_safe (Z.abs (val x)) (Z.abs (val y)) ->
  exists r, divide x y = Ok r /\ canonical r /\ val r = Z.quot (val x) (val y).
Proof.
  intros Hx Tx Hy Nz S. rewrite !abs_val in S by assumption.
  destruct (divide_gen x y Hx Hy) as [[H _]|[[_ [H E]]|[_ [H [[Hs _]|[_ Hok]]]]]].
  - contradiction.
  - exists (mkInt [0] false). splits; auto; [apply canonical_zero|].
    symmetry. apply Z.quot_small_iff; [assumption|]. rewrite !abs_val by assumption. exact H.
  - exfalso. apply stuck_div_safe in Hs; auto.
  - exact Hok.
Qed.

Lemma divide_unsafe x y : wf x -> trimmed (bins x) -> wf y -> val y <> 0 -> ~ div_safe (Z.abs (val x)) (Z.abs (val y)) ->
  divide x y = Abort.
Proof.
  intros Hx Tx Hy Nz S. rewrite !abs_val in S by assumption.
  destruct (divide_gen x y Hx Hy) as [[H _]|[[_ [H E]]|[_ [H [[_ Hs]|[Hs _]]]]]].
  - contradiction.
  - exfalso. apply S. left. exact H.
  - exact Hs.
  - exfalso. apply Hs. apply stuck_div_safe; auto.
Qed.

Lemma divide_by_zero x y : wf x -> wf y -> val y = 0 -> divide x y = Throw DivideByZero.
Proof.
  intros Hx Hy V. unfold divide. rewrite equals_int32_0 by assumption. cbn [bind].
  rewrite <- abs_val, V by assumption. reflexivity.
Qed.

Lemma div_safe_dec_x x b : wf x -> trimmed (bins x) -> div_safe (aval x) b \/ ~ div_safe (aval x) b.
Proof.
  intros Hx Tx. destruct (Z_lt_le_dec (aval x) b) as [L|L]; [left; left; exact L|].
  pose proof (stuck_div_safe x b Hx Tx L) as I.
  destruct (stuck_dec (bins x) b (length (bins x))) as [D|D].
  - right. apply I. exact D.
  - left. right. intros i I1 I2 I3 I4. apply (stuck_none (bins x) b) in D.
    apply D, I. intros [S|S]; [lia|]. apply (S i); assumption.
Qed.
