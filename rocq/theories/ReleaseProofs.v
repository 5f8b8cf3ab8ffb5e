(** The build without assertions against the build with them. *)
From Coq Require Import ZifyBool.
From Verif Require Import Base IntModel IntSpec IntBasics IntAddSub IntMul IntDiv IntMod ReleaseModel.
Local Open Scope list_scope.
Local Open Scope Z_scope.

(** *** What the build with assertions returns the other returns too, whatever the operands. *)
Definition keeps {A} (m m' : res A) : Prop := forall a, m = Ok a -> m' = Ok a.
Lemma keeps_refl {A} (m : res A) : keeps m m. Proof. intros a E. exact E. Qed.
Lemma bind_inv {A B} (m : res A) (f : A -> res B) b : bind m f = Ok b -> exists a, m = Ok a /\ f a = Ok b.
Proof. destruct m as [a|e| | |]; cbn; try discriminate. intros E. exists a. auto. Qed.
Lemma keeps_bind {A B} (m m' : res A) (f f' : A -> res B) : keeps m m' -> (forall a, keeps (f a) (f' a)) -> keeps (bind m f) (bind m' f').
Proof. intros H1 H2 b E. apply bind_inv in E. destruct E as (a & E1 & E2). rewrite (H1 a E1). cbn. apply H2. exact E2. Qed.
Lemma keeps_skip {A B} (p : res A) (f : A -> res B) m' : (forall a, keeps (f a) m') -> keeps (bind p f) m'.
Proof. intros H b E. apply bind_inv in E. destruct E as (a & E1 & E2). eapply H. exact E2. Qed.
Create HintDb keeps.
Ltac kp := repeat first [match goal with |- keeps ?m ?m' => constr_eq m m'; apply keeps_refl end
  |match goal with |- keeps (bind _ _) (bind _ _) => apply keeps_bind; [|intros ?] end
  |match goal with |- keeps (if ?b then _ else _) (if ?b then _ else _) => destruct b end
  |match goal with |- keeps (match ?b with _ => _ end) _ => destruct b end
  |progress cbn [fst snd]
  |solve [eauto 2 with keeps nocore]].

Lemma subtract_keeps x y : keeps (subtract x y) (subtract_nd x y).
Proof. unfold subtract, subtract_nd. do 6 (apply keeps_skip; intros ?). kp. Qed.
#[export] Hint Resolve subtract_keeps : keeps.
Lemma addsub_keeps f : forall s x y, keeps (addsub f s x y) (addsub_nd f s x y).
Proof. induction f as [|f IH]; intros s x y; cbn [addsub addsub_nd]; kp. Qed.
Lemma op_add_keeps x y : keeps (op_add x y) (op_add_nd x y). Proof. apply addsub_keeps. Qed.
Lemma op_sub_keeps x y : keeps (op_sub x y) (op_sub_nd x y). Proof. apply addsub_keeps. Qed.
Lemma addsub_assign_keeps f : forall s x o, keeps (addsub_assign f s x o) (addsub_assign_nd f s x o).
Proof. induction f as [|f IH]; intros s x o; cbn [addsub_assign addsub_assign_nd]; kp. Qed.
Lemma add_assign_keeps x o : keeps (add_assign x o) (add_assign_nd x o). Proof. apply addsub_assign_keeps. Qed.
Lemma sub_assign_keeps x o : keeps (sub_assign x o) (sub_assign_nd x o). Proof. apply addsub_assign_keeps. Qed.
#[export] Hint Resolve op_add_keeps op_sub_keeps add_assign_keeps sub_assign_keeps : keeps.
Lemma mbi_loop_keeps xs : forall y i r, keeps (mbi_loop xs y i r) (mbi_loop_nd xs y i r).
Proof. induction xs as [|b xs IH]; intros y i r; cbn [mbi_loop mbi_loop_nd]; kp. Qed.
#[export] Hint Resolve mbi_loop_keeps : keeps.
Lemma mbi_keeps x y : keeps (multiply_by_int x y) (multiply_by_int_nd x y). Proof. unfold multiply_by_int, multiply_by_int_nd. kp. Qed.
#[export] Hint Resolve mbi_keeps : keeps.
Lemma mul_loop_keeps x ys : forall i r, keeps (mul_loop x ys i r) (mul_loop_nd x ys i r).
Proof. induction ys as [|b ys IH]; intros i r; cbn [mul_loop mul_loop_nd]; kp. Qed.
#[export] Hint Resolve mul_loop_keeps : keeps.
Lemma multiply_keeps x y : keeps (multiply x y) (multiply_nd x y). Proof. unfold multiply, multiply_nd. kp. Qed.
#[export] Hint Resolve multiply_keeps : keeps.
Lemma op_mul_keeps x y : keeps (op_mul x y) (op_mul_nd x y). Proof. unfold op_mul, op_mul_nd. kp. Qed.
Lemma mul_assign_keeps x o : keeps (mul_assign x o) (mul_assign_nd x o). Proof. unfold mul_assign, mul_assign_nd. kp. Qed.
#[export] Hint Resolve op_mul_keeps mul_assign_keeps : keeps.
Lemma iter_keeps f : forall y x b s, keeps (iter_quotient f y x b s) (iter_quotient_nd f y x b s).
Proof. induction f as [|f IH]; intros y x b s; cbn [iter_quotient iter_quotient_nd]; kp. Qed.
#[export] Hint Resolve iter_keeps : keeps.
Lemma qr_loop_keeps f : forall y x s q r, keeps (qr_loop f y x s q r) (qr_loop_nd f y x s q r).
Proof. induction f as [|f IH]; intros y x s q r; cbn [qr_loop qr_loop_nd]; kp. Qed.
#[export] Hint Resolve qr_loop_keeps : keeps.
Lemma qr_keeps y x r : keeps (quotient_and_remainder y x r) (quotient_and_remainder_nd y x r).
Proof. unfold quotient_and_remainder, quotient_and_remainder_nd. do 5 (apply keeps_skip; intros ?). kp. Qed.
Lemma div_loop_keeps k : forall xn bs r c l, div_loop k xn bs r c = Ok l -> div_loop_nd k xn bs r c = (l, Ok tt).
Proof.
  induction k as [|i IH]; intros xn bs r c l E; cbn [div_loop div_loop_nd] in *; [injection E as ->; reflexivity|].
  apply bind_inv in E. destruct E as (_ & _ & E). apply bind_inv in E. destruct E as (_ & _ & E). apply bind_inv in E. destruct E as (bi & E1 & E).
  apply bind_inv in E. destruct E as (cb & E2 & E). rewrite E1. cbn [bind]. rewrite E2. destruct (cmp_bins xn (mkInt cb (negative c)) <=? 0).
  - apply bind_inv in E. destruct E as ([[bs1 r1] c1] & E3 & E). apply bind_inv in E3. destruct E3 as (q & E3 & E4). rewrite (qr_keeps _ _ _ _ E3). cbn [bind].
    apply bind_inv in E4. destruct E4 as (_ & _ & E4). apply bind_inv in E4. destruct E4 as (b' & E4 & E5). injection E5 as <- <- <-. rewrite E4. cbn [bind]. apply IH. exact E.
  - apply bind_inv in E. destruct E as ([[bs1 r1] c1] & E3 & E). apply bind_inv in E3. destruct E3 as (b' & E3 & E4). injection E4 as <- <- <-. rewrite E3. apply IH. exact E.
Qed.
Lemma divide_keeps x y r : divide x y = Ok r -> divide_nd x y = (r, Ok tt).
Proof.
  unfold divide, divide_nd. intros E. apply bind_inv in E. destruct E as (z & E1 & E). rewrite E1. destruct z; [discriminate|].
  destruct (cmp_bins x y <? 0); [rewrite E; reflexivity|]. apply bind_inv in E. destruct E as (xn & E2 & E). rewrite E2. apply bind_inv in E. destruct E as (bs & E3 & E).
  rewrite (div_loop_keeps _ _ _ _ _ _ E3). injection E as <-. reflexivity.
Qed.
Lemma op_div_keeps x y : keeps (op_div x y) (op_div_nd x y).
Proof. intros r E. unfold op_div_nd. rewrite (divide_keeps x y r E). reflexivity. Qed.
#[export] Hint Resolve op_div_keeps : keeps.
Lemma op_mod_keeps x y : keeps (op_mod x y) (op_mod_nd x y).
Proof. unfold op_mod, op_mod_nd, modulo, modulo_nd. kp. Qed.
Lemma exponentiate_keeps f : forall x y, keeps (exponentiate f x y) (exponentiate_nd f x y).
Proof. induction f as [|f IH]; intros x y; cbn [exponentiate exponentiate_nd]; kp. Qed.
Lemma op_pow_keeps x y : keeps (op_pow x y) (op_pow_nd x y). Proof. apply exponentiate_keeps. Qed.
#[export] Hint Resolve op_mod_keeps op_pow_keeps : keeps.
Lemma in_place_keeps x m m' r : keeps m m' -> m = Ok r -> in_place x m' = (r, Ok tt).
Proof. intros K E. rewrite (K r E). reflexivity. Qed.
Lemma iter_mul10_keeps n : forall x, keeps (iter_mul10 n x) (iter_mul10_nd n x).
Proof. induction n as [|n IH]; intros x; cbn [iter_mul10 iter_mul10_nd]; kp. Qed.
#[export] Hint Resolve iter_mul10_keeps : keeps.
Lemma iter_div10_keeps n : forall x r, iter_div10 n x = Ok r -> iter_div10_nd n x = (r, Ok tt).
Proof.
  induction n as [|n IH]; intros x r E; cbn [iter_div10 iter_div10_nd] in *; [injection E as ->; reflexivity|].
  apply bind_inv in E. destruct E as (ten & E1 & E). rewrite E1. apply bind_inv in E. destruct E as (d & E2 & E). unfold div_assign_nd. rewrite (divide_keeps _ _ _ E2). apply IH. exact E.
Qed.
Lemma times_power_ten_keeps x p r : times_power_ten x p = Ok r -> times_power_ten_nd x p = (r, Ok tt).
Proof.
  unfold times_power_ten, times_power_ten_nd. destruct (p >? 0).
  - apply in_place_keeps. kp.
  - destruct (p <? 0); [|intros E; injection E as ->; reflexivity]. intros E. apply bind_inv in E. destruct E as (q & E1 & E). rewrite E1.
    destruct (skipn _ _); [apply (in_place_keeps x _ _ r (keeps_refl _) E)|apply iter_div10_keeps; exact E].
Qed.

(** *** Division where an assertion fails *)
Section Loop.
Variables (xn : Int).
Hypothesis (Hx : wf xn) (Nx : nonneg xn) (Px : 0 < aval xn).
Let X := aval xn.
Lemma div_loop_left : forall k lo r cur rem,
  length lo = k -> Forall digit_ok lo ->
  canonical cur -> nonneg cur -> aval cur = B * rem -> 0 <= rem < X ->
  let a := rem * pw k + bins_val lo in X <= a -> div_loop k xn lo r cur = Abort ->
  exists j, stuck_at xn lo a j /\ (forall j', stuck_at xn lo a j' -> (j' <= j)%nat) /\
    div_loop_nd k xn lo r cur = (clean_list (firstn (j + 1) lo), Throw OutOfRange).
Proof.
  induction k as [|i IH]; intros lo r cur rem Hl Dl Cc Nc Vc Hr a Ha Hab; [cbn [div_loop] in Hab; discriminate|].
  destruct (exists_last (l := lo)) as [lo' [bi ->]]; [destruct lo; discriminate|].
  rewrite app_length in Hl. cbn [length] in Hl. assert (Hl' : length lo' = i) by lia.
  apply Forall_app in Dl as [Dl' Db]. inversion Db as [|? ? Hb _]; subst i; subst.
  assert (Hb' := Hb). unfold digit_ok in Hb'.
  cbn [div_loop div_loop_nd] in *.
  pose proof (size_pos cur ltac:(auto)) as Sc.
  replace (0 <? size cur)%nat with true in Hab by lia. cbn [assert_ bind] in Hab.
  replace (length lo' <? length (lo' ++ [bi]))%nat with true in Hab by (rewrite app_length; cbn [length]; lia).
  cbn [assert_ bind] in Hab. rewrite at_mid in *. cbn [bind] in *.
  destruct (set_first cur rem bi Cc Nc Vc ltac:(lia) Hb) as [cb [E1 [W1 [T1 V1]]]].
  rewrite E1 in *. cbn [bind] in *. set (cu := mkInt cb (negative cur)) in *.
  assert (Nu : nonneg cu) by exact Nc.
  assert (Vu : aval cu = B * rem + bi) by exact V1.
  rewrite cmp_bins_spec in * by assumption. fold X in Hab |- *.
  pose proof (pw_pos (length lo')) as PP.
  pose proof (bins_val_bound _ Dl') as Blo.
  assert (Ea : a = aval cu * pw (length lo') + bins_val lo').
  { subst a. rewrite bins_val_app, pw_S. cbn [bins_val]. rewrite Vu. lia. }
  pose proof (aval_nonneg cu W1) as Au.
  assert (Ediv : a / pw (length lo') = aval cu).
  { rewrite Ea. rewrite Z.add_comm, Z.div_add by lia. rewrite Z.div_small by lia. lia. }
  destruct (Z.leb_spec (Z.sgn (X - aval cu)) 0).
  - exfalso. destruct (quotient_and_remainder_ok cu xn r) as [r1 [E2 [C2 [N2 V2]]]]; auto; try (fold X; lia).
    rewrite E2 in Hab. cbn [bind fst snd] in Hab. fold X in Hab.
    assert (0 < aval cu / X < B).
    { split; [apply Z.div_str_pos; lia|apply Z.div_lt_upper_bound; lia]. }
    replace (negb (aval cu / X =? 0)) with true in Hab by lia. cbn [assert_ bind] in Hab.
    rewrite set_nth_mid in Hab. cbn [bind] in Hab.
    destruct (next_current r1 ltac:(auto) ltac:(auto) N2) as [C3 [N3 V3]].
    pose proof (Z.mod_pos_bound (aval cu) X Px) as M. fold X in V2.
    destruct (div_loop_started xn Hx Nx Px (length lo') lo' [aval cu / X] r1 (clean_bins (Int_shifted r1 1)) (aval cu mod X) eq_refl Dl') as [bs [E _]]; auto; try lia.
    { constructor; [unfold digit_ok; lia|constructor]. }
    { discriminate. }
    { cbn [last]. lia. }
    rewrite E in Hab. discriminate.
  - rewrite set_nth_mid in *. cbn [bind] in *.
    destruct (next_current cu W1 T1 Nu) as [C3 [N3 V3]].
    assert (aval cu < X) by lia.
    assert (H1 : lo' <> []).
    { intros ->. cbn [length bins_val] in *. rewrite pw_0 in *. lia. }
    destruct (clean_list_spec lo' Dl' H1) as [nz [K1 [K2 [K3 K4]]]].
    assert (Kc : clean_list (lo' ++ [0]) = clean_list lo').
    { unfold clean_list. rewrite rev_app_distr. cbn [rev app].
      destruct (rev lo') as [|z zs] eqn:Er; [|reflexivity].
      exfalso. apply H1. rewrite <- (rev_involutive lo'), Er. reflexivity. }
    rewrite Kc in *.
    destruct (trimmedb lo') eqn:Tb.
    + apply trimmedb_spec in Tb; [|assumption]. rewrite (clean_trimmed lo' Tb) in *.
      destruct (IH lo' r _ (aval cu) eq_refl Dl' C3 N3 V3 ltac:(lia)) as (j & Hj & Mj & E); [lia|exact Hab|].
      rewrite <- Ea in Hj, Mj. exists j. splits.
      * destruct Hj as [J1 [J2 [J3 J4]]]. unfold stuck_at. splits; auto.
        ++ rewrite app_length. cbn. lia.
        ++ rewrite app_nth1 by lia. assumption.
      * intros j' [J1 [J2 [J3 J4]]]. rewrite app_length in J2. cbn [length] in J2. rewrite app_nth1 in J3 by lia.
        destruct (Nat.eq_dec (j' + 1) (length lo')) as [Ej|Ej].
        ++ exfalso. destruct Tb as [_ Tb]. apply Tb; [lia|]. rewrite (list_snoc lo' 0 H1) in J3.
           rewrite app_nth2 in J3; rewrite (length_snoc lo' H1) in Ej; [|lia].
           replace (j' - length (removelast lo'))%nat with 0%nat in J3 by lia. exact J3.
        ++ apply Mj. unfold stuck_at. splits; auto. lia.
      * rewrite E. f_equal. f_equal. destruct Hj as (J1 & J2 & _). rewrite firstn_app. replace (j + 1 - length lo')%nat with 0%nat by lia. cbn [firstn]. rewrite app_nil_r. reflexivity.
    + assert (Hlen : (length lo' > 1)%nat /\ last lo' 0 = 0).
      { unfold trimmedb in Tb. split; [lia|]. destruct (Z.eqb_spec (last lo' 0) 0); [assumption|]. lia. }
      destruct Hlen as [Hl1 Hl2]. exists (length lo' - 1)%nat. splits.
      * unfold stuck_at. splits.
        ++ lia.
        ++ rewrite app_length. cbn [length]. lia.
        ++ rewrite app_nth1 by lia. rewrite (list_snoc lo' 0 H1) at 2.
           rewrite app_nth2; rewrite (length_snoc lo' H1); [|lia].
           replace (S (length (removelast lo')) - 1 - length (removelast lo'))%nat with 0%nat by lia. exact Hl2.
        ++ replace (length lo' - 1 + 1)%nat with (length lo') by lia. fold X. lia.
      * intros j' [J1 [J2 _]]. rewrite app_length in J2. cbn [length] in J2. lia.
      * assert (Hcl : (length (clean_list lo') < length lo')%nat).
        { rewrite K1 at 2. rewrite app_length, repeat_length. destruct nz; [|lia].
          cbn [repeat] in K1. rewrite app_nil_r in K1. rewrite K1 in Hl2, Hl1.
          destruct K2 as [_ K2]. exfalso. apply K2; [rewrite K1 in *; lia|]. exact Hl2. }
        replace (length lo' - 1 + 1)%nat with (length lo') by lia. rewrite firstn_app, firstn_all, Nat.sub_diag. cbn [firstn]. rewrite app_nil_r.
        destruct (length lo') as [|m] eqn:Em; [lia|]. cbn [div_loop_nd]. unfold at_.
        rewrite (proj2 (nth_error_None (clean_list lo') m)) by lia. reflexivity.
Qed.
End Loop.
