(** Frac without assertions against Frac with them. *)
From Coq Require Import ZifyBool QArith.
From Verif Require Import Base IntModel IntSpec IntBasics IntAddSub IntMul IntDiv IntMod IntScale IntPowDefined IntCalls IOModel FracModel FracSpec FracProofs FracPow ExtProofs
  ReleaseModel ReleaseSpec ReleaseProofs ReleaseProofs2 FracReleaseModel FracReleaseSpec.
Local Open Scope list_scope.
Local Open Scope Z_scope.

(** *** What is returned with assertions is returned without them. *)
Definition fkeeps (p p' : fst_res) : Prop := forall f, p = (f, Ok tt) -> p' = (f, Ok tt).
Lemma fkeeps_refl p : fkeeps p p. Proof. intros f E. exact E. Qed.
Lemma fthen_inv p k f : fthen p k = (f, Ok tt) -> exists g, p = (g, Ok tt) /\ k g = (f, Ok tt).
Proof. destruct p as [g [[]|e| | |]]; cbn; try discriminate. intros E. exists g. auto. Qed.
Lemma fkeeps_then p p' k k' : fkeeps p p' -> (forall f, fkeeps (k f) (k' f)) -> fkeeps (fthen p k) (fthen p' k').
Proof. intros H1 H2 f E. apply fthen_inv in E. destruct E as (g & E1 & E2). rewrite (H1 g E1). cbn. apply H2. exact E2. Qed.
Lemma set_top_inv f m g : set_top f m = (g, Ok tt) -> exists t, m = Ok t /\ g = mkFrac t (bot f).
Proof. destruct m; cbn; try discriminate. intros [= <-]. eauto. Qed.
Lemma set_bot_inv f m g : set_bot f m = (g, Ok tt) -> exists b, m = Ok b /\ g = mkFrac (top f) b.
Proof. destruct m; cbn; try discriminate. intros [= <-]. eauto. Qed.
Lemma fkeeps_set_top f m m' : keeps m m' -> fkeeps (set_top f m) (set_top f m').
Proof. intros K g E. apply set_top_inv in E. destruct E as (t & E & ->). rewrite (K t E). reflexivity. Qed.
Lemma fkeeps_set_bot f m m' : keeps m m' -> fkeeps (set_bot f m) (set_bot f m').
Proof. intros K g E. apply set_bot_inv in E. destruct E as (t & E & ->). rewrite (K t E). reflexivity. Qed.
Lemma fkeeps_put_top f m p : (forall r, m = Ok r -> p = (r, Ok tt)) -> fkeeps (set_top f m) (put_top f p).
Proof. intros K g E. apply set_top_inv in E. destruct E as (t & E & ->). rewrite (K t E). reflexivity. Qed.
Lemma fkeeps_put_bot f m p : (forall r, m = Ok r -> p = (r, Ok tt)) -> fkeeps (set_bot f m) (put_bot f p).
Proof. intros K g E. apply set_bot_inv in E. destruct E as (t & E & ->). rewrite (K t E). reflexivity. Qed.
Lemma fail_inv {A} f (m : res A) g : fail_with f m = (g, Ok tt) -> exists a, m = Ok a /\ g = f.
Proof. destruct m; cbn; try discriminate. intros [= <-]. eauto. Qed.

Lemma gcd_loop_keeps f : forall a b, keeps (gcd_loop f a b) (gcd_loop_nd f a b).
Proof. induction f as [|f IH]; intros a b; cbn [gcd_loop gcd_loop_nd]; kp. Qed.
Lemma gcd_keeps x y : keeps (GCD x y) (GCD_nd x y).
Proof. unfold GCD, GCD_nd, nochecks_gcd, nochecks_gcd_nd. kp; apply gcd_loop_keeps. Qed.
Lemma normalize_keeps f : fkeeps (normalize f) (normalize_nd f).
Proof.
  unfold normalize, normalize_nd. apply fkeeps_then; [apply fkeeps_refl|]. clear f. intros f g E.
  destruct (GCD (top f) (bot f)) as [c|e| | |] eqn:Ec; cbn [fail_with] in E; try discriminate. rewrite (gcd_keeps _ _ _ Ec). revert g E.
  apply fkeeps_then; [apply fkeeps_put_top; intros r Er; apply divide_keeps; exact Er|]. intros f'. apply fkeeps_put_bot. intros r Er. apply divide_keeps. exact Er.
Qed.
Lemma result_keeps p p' : fkeeps p p' -> keeps (result p) (result p').
Proof.
  intros K f E. destruct p as [g [[]|e| | |]]; unfold result in E; cbn in E; try discriminate. injection E as ->. rewrite (K f eq_refl). reflexivity.
Qed.
Lemma normalize_result_keeps f : keeps (result (normalize f)) (result (normalize_nd f)).
Proof. apply result_keeps, normalize_keeps. Qed.
#[export] Hint Resolve normalize_result_keeps : keeps.
Lemma make_keeps t b : keeps (Frac_make t b) (Frac_make_nd t b).
Proof. unfold Frac_make, Frac_make_nd. kp. Qed.
#[export] Hint Resolve make_keeps : keeps.
Lemma string_keeps x : keeps (Frac_of_string x) (Frac_of_string_nd x).
Proof. unfold Frac_of_string, Frac_of_string_nd. destruct x; [apply keeps_refl|]. kp. Qed.
Lemma tpt_finish_keeps x p : keeps (times_power_ten x p) (finish (times_power_ten_nd x p)).
Proof. intros r E. rewrite (times_power_ten_keeps _ _ _ E). reflexivity. Qed.
#[export] Hint Resolve tpt_finish_keeps : keeps.
Lemma double_keeps x p : keeps (from_double x p) (from_double_nd x p).
Proof. unfold from_double, from_double_nd. cbv zeta. destruct (negb (isFinite x)); [apply keeps_refl|]. destruct (find_dot _) as [[l r]|]; [|apply keeps_refl]. kp. Qed.
Ltac kbin := cbv delta [F_add F_sub F_mul F_div F_lt IF_add IF_sub IF_mul IF_div FI_add FI_sub FI_mul FI_div F_pow reciprocal
  F_add_nd F_sub_nd F_mul_nd F_div_nd F_lt_nd IF_add_nd IF_sub_nd IF_mul_nd IF_div_nd FI_add_nd FI_sub_nd FI_mul_nd FI_div_nd F_pow_nd reciprocal_nd]; cbv beta; kp.
Lemma F_add_keeps x y : keeps (F_add x y) (F_add_nd x y). Proof. kbin. Qed.
Lemma F_sub_keeps x y : keeps (F_sub x y) (F_sub_nd x y). Proof. kbin. Qed.
Lemma F_mul_keeps x y : keeps (F_mul x y) (F_mul_nd x y). Proof. kbin. Qed.
Lemma F_div_keeps x y : keeps (F_div x y) (F_div_nd x y). Proof. kbin. Qed.
Lemma F_lt_keeps x y : keeps (F_lt x y) (F_lt_nd x y). Proof. kbin. Qed.
Lemma IF_add_keeps x y : keeps (IF_add x y) (IF_add_nd x y). Proof. kbin. Qed.
Lemma IF_sub_keeps x y : keeps (IF_sub x y) (IF_sub_nd x y). Proof. kbin. Qed.
Lemma IF_mul_keeps x y : keeps (IF_mul x y) (IF_mul_nd x y). Proof. kbin. Qed.
Lemma IF_div_keeps x y : keeps (IF_div x y) (IF_div_nd x y). Proof. kbin. Qed.
Lemma FI_add_keeps x y : keeps (FI_add x y) (FI_add_nd x y). Proof. kbin. Qed.
Lemma FI_sub_keeps x y : keeps (FI_sub x y) (FI_sub_nd x y). Proof. kbin. Qed.
Lemma FI_mul_keeps x y : keeps (FI_mul x y) (FI_mul_nd x y). Proof. kbin. Qed.
Lemma FI_div_keeps x y : keeps (FI_div x y) (FI_div_nd x y). Proof. kbin. Qed.
Lemma F_pow_keeps x y : keeps (F_pow x y) (F_pow_nd x y). Proof. kbin. Qed.
Lemma reciprocal_keeps x : keeps (reciprocal x) (reciprocal_nd x). Proof. kbin. Qed.
Ltac fk := repeat match goal with
  | |- fkeeps (normalize _) _ => apply normalize_keeps
  | |- fkeeps (fthen _ _) _ => apply fkeeps_then; [|intros ?]
  | |- fkeeps (set_top _ _) _ => apply fkeeps_set_top
  | |- fkeeps (set_bot _ _) _ => apply fkeeps_set_bot
  end; kp.
Lemma addsub_fkeeps op op' x y : (forall a b, keeps (op a b) (op' a b)) -> fkeeps (F_addsub_assign op x y) (F_addsub_assign_nd op' x y).
Proof. intros K. unfold F_addsub_assign, F_addsub_assign_nd. fk. Qed.
Lemma F_mul_fkeeps x y : fkeeps (F_mul_assign x y) (F_mul_assign_nd x y). Proof. unfold F_mul_assign, F_mul_assign_nd. fk. Qed.
Lemma F_div_fkeeps x y : fkeeps (F_div_assign x y) (F_div_assign_nd x y). Proof. unfold F_div_assign, F_div_assign_nd. fk. Qed.
Lemma FI_add_fkeeps x a : fkeeps (FI_add_assign x a) (FI_add_assign_nd x a). Proof. unfold FI_add_assign, FI_add_assign_nd. fk. Qed.
Lemma FI_sub_fkeeps x a : fkeeps (FI_sub_assign x a) (FI_sub_assign_nd x a). Proof. unfold FI_sub_assign, FI_sub_assign_nd. fk. Qed.
Lemma FI_mul_fkeeps x a : fkeeps (FI_mul_assign x a) (FI_mul_assign_nd x a). Proof. unfold FI_mul_assign, FI_mul_assign_nd. fk. Qed.
Lemma FI_div_fkeeps x a : fkeeps (FI_div_assign x a) (FI_div_assign_nd x a). Proof. unfold FI_div_assign, FI_div_assign_nd. fk. Qed.
Lemma pow_assign_keeps x o r : pow_assign x o = Ok r -> pow_assign_nd x o = (r, Ok tt).
Proof. unfold pow_assign_nd. apply in_place_keeps. apply op_pow_keeps. Qed.
Lemma F_pow_fkeeps x a : fkeeps (F_pow_assign x a) (F_pow_assign_nd x a).
Proof.
  unfold F_pow_assign, F_pow_assign_nd. destruct (if is_negative a then op_neg a else Ok a); try apply fkeeps_refl.
  apply fkeeps_then; [apply fkeeps_put_bot, pow_assign_keeps|]. intros f. apply fkeeps_then; [apply fkeeps_put_top, pow_assign_keeps|]. intros f'. apply normalize_keeps.
Qed.

(** *** Where an assertion fails *)
Lemma gcd_loop_released f : forall a b, okrep a -> okrep b -> 0 <= val b <= val a -> gcd_loop_nd f a b = released (gcd_loop f a b).
Proof.
  induction f as [|f IH]; intros a b Ha Hb Hv; [reflexivity|]. cbn [gcd_loop gcd_loop_nd]. rewrite equals_int32_0 by auto. cbn [bind].
  assert (Eb : aval b = val b) by (apply val_nonneg_abs; auto; lia).
  assert (Ea : aval a = val a) by (apply val_nonneg_abs; auto; lia).
  rewrite Eb. destruct (Z.eqb_spec (val b) 0) as [Z0|Z0]; [reflexivity|].
  assert (Tb : trimmed (bins b)) by (apply Hb; lia).
  assert (Ta : trimmed (bins a)) by (apply Ha; lia).
  rewrite op_mod_released by auto. destruct (div_safe_dec (val a) (val b)) as [D|D]; [lia| |].
  - destruct (op_mod_ok a b) as [r [Er [Cr Vr]]]; auto; [rewrite !Z.abs_eq by lia; exact D|]. rewrite Er. cbn [released bind].
    apply IH; auto. assert (0 <= val a mod val b < val b) by ldiv. lia.
  - rewrite op_mod_unsafe; auto. rewrite !Z.abs_eq by lia. exact D.
Qed.
Lemma GCD_released x y : okrep x -> okrep y -> GCD_nd x y = released (GCD x y).
Proof.
  intros Hx Hy. unfold GCD, GCD_nd, nochecks_gcd, nochecks_gcd_nd.
  destruct (abs_Int_okrep x Hx) as (a & Ea & Ha & Va & Ca). destruct (abs_Int_okrep y Hy) as (b & Eb & Hb & Vb & Cb).
  rewrite Ea, Eb. cbn [bind]. rewrite op_lt_spec by auto. cbn [bind]. rewrite Va, Vb.
  destruct (Z.ltb_spec (Z.abs (val x)) (Z.abs (val y))) as [L|L]; apply gcd_loop_released; auto; lia.
Qed.

Lemma released_ok {A} (m : res A) a : released m = Ok a -> m = Ok a.
Proof. destruct m; cbn; congruence. Qed.
Lemma divides_unsafe_mono a g c : ~ div_safe a g -> g <= c <= a -> ~ div_safe a c.
Proof. intros H Hc [S|S]; [lia|]. apply H. right. intros j J1 J2 J3. apply S; auto. lia. Qed.
Lemma gcd_fail_divides a b : 0 <= a -> 0 <= b -> gcd_safe (Z.max a b) (Z.min a b) -> ~ div_safe a (Z.gcd a b) -> a <> 0 /\ (a | b).
Proof.
  intros Ha Hb G D. destruct (Z.eq_dec a 0) as [->|Na].
  { exfalso. destruct (Z.eq_dec b 0) as [->|Nb].
    - apply D. right. intros i I1 I2. assert (0 < B ^ (i + 1)) by (apply Z.pow_pos_nonneg; lia). lia.
    - apply D. left. rewrite Z.gcd_0_l. lia. }
  split; [exact Na|]. destruct (Z.eq_dec b 0) as [->|Nb]; [apply Z.divide_0_r|].
  assert (Gp : 0 < Z.gcd a b) by (pose proof (Z.gcd_nonneg a b); destruct (Z.eq_dec (Z.gcd a b) 0) as [E|E]; [apply Z.gcd_eq_0 in E; lia|lia]).
  pose proof (Z.gcd_divide_l a b) as G1. pose proof (Z.gcd_divide_r a b) as G2. assert (Z.gcd a b <= a) by (apply Z.divide_pos_le; [lia|exact G1]). assert (Z.gcd a b <= b) by (apply Z.divide_pos_le; [lia|exact G2]).
  destruct (Z_le_gt_dec b a) as [L|L].
  - exfalso. rewrite Z.max_l, Z.min_r in G by lia. inversion G as [|? ? P1 P2 P3]; subst; [lia|]. revert P2. apply (divides_unsafe_mono a (Z.gcd a b)); auto.
  - rewrite Z.max_r, Z.min_l in G by lia. inversion G as [|? ? P1 P2 P3]; subst; [lia|].
    inversion P3 as [|? ? Q1 Q2 Q3]; subst; [apply Z.mod_divide; [lia|congruence]|exfalso].
    revert Q2. apply (divides_unsafe_mono a (Z.gcd a b)); auto. split; [|pose proof (Z.mod_pos_bound b a); lia].
    apply Z.divide_pos_le; [lia|]. rewrite Z.mod_eq by lia. apply Z.divide_sub_r; [exact G2|]. apply Z.divide_mul_l. exact G1.
Qed.

(** what the two builds do to one object *)
Definition same_end (p p' : fst_res) (L : Prop) : Prop := (snd p = Abort /\ snd p' = Throw OutOfRange /\ L) \/ (snd p <> Abort /\ p' = p).
Lemma normalize_nd_ends t b : okrep t -> okrep b ->
  same_end (normalize (mkFrac t b)) (normalize_nd (mkFrac t b)) (val b <> 0 \/ negative b = false -> left_frac (val t) (val b) (fst (normalize_nd (mkFrac t b)))).
Proof.
  intros Ht Hb.
  assert (G : exists t' b', okrep t' /\ okrep b' /\ val t' = (if negative b then - val t else val t) /\ val b' = Z.abs (val b) /\
    (forall k, fthen (if is_negative b then fthen (set_bot (mkFrac t b) (negate b)) (fun f => set_top f (negate (top f))) else (mkFrac t b, Ok tt)) k = k (mkFrac t' b'))).
  { pose proof (aval_nonneg b ltac:(auto)). unfold is_negative. destruct (negative b) eqn:Nb.
    - destruct (okrep_negate t Ht) as (t' & Et & Ot & Vt & Nt). destruct (okrep_negate b Hb) as (b' & Eb & Ob & Vb & Nb').
      exists t', b'. splits; auto; [rewrite Vb, (val_aval b), Nb; lia|]. intros k. rewrite Eb. cbn [set_bot fthen top bot]. rewrite Et. cbn [set_top fthen top bot]. reflexivity.
    - exists t, b. splits; auto. rewrite (val_aval b), Nb. lia. }
  destruct G as (t' & b' & Ot & Ob & Vt & Vb & Hk). unfold normalize, normalize_nd. cbn [top bot]. rewrite !Hk. cbn [top bot]. clear Hk.
  rewrite GCD_released by assumption. destruct (GCD_ok t' b' Ot Ob) as [G1 G2].
  assert (LF : val b <> 0 \/ negative b = false -> forall l, wf (top l) -> wf (bot l) ->
     (~ gcd_safe (Z.max (Z.abs (val t')) (Z.abs (val b'))) (Z.min (Z.abs (val t')) (Z.abs (val b'))) /\ val (top l) = val t' /\ val (bot l) = val b') \/
     ((val t' | val b') /\ val t' <> 0 /\ negative (top l) = (val t' <? 0) /\ left_of (Z.abs (val t')) (Z.abs (val t')) (Z.abs (val (top l))) /\ val (bot l) = val b') \/
     ((val b' | val t') /\ val b' <> 0 /\ val (top l) = val t' / val b' /\ left_of (val b') (val b') (val (bot l))) -> left_frac (val t) (val b) l).
  { intros Hn l W1 W2 Hl. unfold left_frac. cbv zeta. assert (Hs : (val b <? 0) = negative b).
    { pose proof (aval_nonneg b ltac:(auto)). rewrite val_aval in *. destruct (negative b); [|lia]. destruct Hn as [Hn|Hn]; [lia|discriminate]. }
    rewrite Hs, <- Vt. rewrite Vb in Hl. rewrite Z.abs_involutive in Hl. splits; auto. }
  destruct (gcd_safe_dec (Z.max (Z.abs (val t')) (Z.abs (val b'))) (Z.min (Z.abs (val t')) (Z.abs (val b')))) as [G|G]; try lia.
  2: { rewrite (G2 G). left. cbn [released fail_with snd fst]. splits; auto. }
  destruct (G1 G) as (g & Eg & Hg & Vg & _). rewrite Eg. cbn [released].
  unfold div_assign, div_assign_nd. cbn [rd]. unfold put_top.
  destruct (divide_gen t' g ltac:(auto) ltac:(auto)) as [[H E]|Hd].
  { unfold divide_nd. rewrite E, equals_int32_0 by auto. replace (aval g =? 0) with true by (pose proof (abs_val g ltac:(auto)); lia). right. split; [discriminate|reflexivity]. }
  assert (Ng : val g <> 0) by (destruct Hd as [[? _]|[? _]]; assumption). assert (Gg : Z.abs (val g) = Z.gcd (Z.abs (val t')) (Z.abs (val b'))) by (rewrite Z.gcd_abs_l, Z.gcd_abs_r, Vg; pose proof (Z.gcd_nonneg (val t') (val b')); lia).
  destruct (div_safe_dec (Z.abs (val t')) (Z.abs (val g))) as [D1|D1]; [lia| |].
  2: { assert (E : divide t' g = Abort) by (apply divide_okrep_unsafe; auto). rewrite E.
    rewrite Gg in D1. destruct (gcd_fail_divides (Z.abs (val t')) (Z.abs (val b')) ltac:(lia) ltac:(lia) G D1) as [Nt Hdv].
    assert (Ct : canonical t') by (apply okrep_nz_canonical; auto; lia).
    destruct (divide_nd_left t' g ltac:(auto) ltac:(auto) ltac:(auto) E) as (l & E2 & W & T & N & Hl & _). rewrite E2. left. cbn [set_top fail_with fthen snd fst]. splits; [reflexivity|reflexivity|].
    intros Hn. apply LF; auto. right. left. cbn [top bot]. rewrite <- (abs_val t'), <- (abs_val g), <- (abs_val l) in Hl by auto.
    assert (Eg2 : Z.abs (val g) = Z.abs (val t')). { rewrite Gg. apply Z.divide_gcd_iff in Hdv; [exact Hdv|lia]. }
    rewrite Eg2 in Hl. splits; auto; [|lia|rewrite N; apply canonical_neg_eq; exact Ct].
    apply Z.divide_abs_l. apply Z.divide_abs_r. exact Hdv. }
  destruct (divide_okrep t' g) as [t2 [Et [Ct Vt2]]]; auto. rewrite Et, (divide_keeps _ _ _ Et). cbn [set_top fthen snd fst top bot]. unfold put_bot.
  destruct (div_safe_dec (Z.abs (val b')) (Z.abs (val g))) as [D2|D2]; [lia| |].
  - destruct (divide_okrep b' g) as [b2 [Eb [Cb2 Vb2]]]; auto. rewrite Eb, (divide_keeps _ _ _ Eb). right. split; [discriminate|reflexivity].
  - assert (E : divide b' g = Abort) by (apply divide_okrep_unsafe; auto). rewrite E. rewrite Gg, Z.gcd_comm in D2. rewrite Z.max_comm, Z.min_comm in G.
    destruct (gcd_fail_divides (Z.abs (val b')) (Z.abs (val t')) ltac:(lia) ltac:(lia) G D2) as [Nt Hdv].
    assert (Cb : canonical b') by (apply okrep_nz_canonical; auto; lia).
    destruct (divide_nd_left b' g ltac:(auto) ltac:(auto) ltac:(auto) E) as (l & E2 & W & T & N & Hl & _). rewrite E2. left. cbn [set_bot fail_with fthen snd fst top bot]. splits; [reflexivity|reflexivity|].
    intros Hn. apply LF; auto. right. right. cbn [top bot]. rewrite <- (abs_val b'), <- (abs_val g), <- (abs_val l) in Hl by auto.
    assert (Eg2 : Z.abs (val g) = Z.abs (val b')). { rewrite Gg, Z.gcd_comm. apply Z.divide_gcd_iff in Hdv; [exact Hdv|lia]. }
    assert (Pb : 0 < val b') by lia. assert (Pg : val g = val b') by (pose proof (Z.gcd_nonneg (val t') (val b')); lia).
    assert (Nb : negative b' = false) by (rewrite (canonical_neg_eq b' Cb); lia). rewrite Nb in N.
    assert (0 <= val l) by (rewrite val_aval, N; apply aval_nonneg; auto).
    rewrite Eg2, !(Z.abs_eq (val b')), (Z.abs_eq (val l)) in Hl by lia. splits; auto; [|lia|].
    + apply Z.divide_abs_l. apply Z.divide_abs_r. exact Hdv.
    + rewrite Vt2, Pg. rewrite Z.divide_abs_l, Z.divide_abs_r in Hdv. destruct Hdv as [k Hk]. rewrite Hk, Z.quot_mul, Z.div_mul by lia. reflexivity.
Qed.

Lemma same_end_weaken p p' (L L' : Prop) : same_end p p' L -> (L -> L') -> same_end p p' L'.
Proof. intros [(H1 & H2 & H3)|H] K; [left|right]; auto. Qed.
Lemma same_end_released p p' L : same_end p p' L -> result p' = released (result p).
Proof. unfold result. intros [(H1 & H2 & _)|(H1 & ->)]; [rewrite H1, H2; reflexivity|]. destruct (snd p) as [[]|e| | |]; try reflexivity. congruence. Qed.
Lemma normalize_released t b : okrep t -> okrep b -> result (normalize_nd (mkFrac t b)) = released (result (normalize (mkFrac t b))).
Proof. intros Ht Hb. eapply same_end_released. apply normalize_nd_ends; assumption. Qed.
Lemma make_released t b : okrep t -> okrep b -> Frac_make_nd t b = released (Frac_make t b).
Proof.
  intros Ht Hb. unfold Frac_make, Frac_make_nd. rewrite equals_int32_0 by auto. cbn [bind]. destruct (aval b =? 0); [reflexivity|]. apply normalize_released; assumption.
Qed.

(** *** The operators *)
Definition cparts (f : Frac) : Prop := canonical (top f) /\ canonical (bot f).
Ltac mul_step2 := match goal with |- context [op_mul_nd ?a ?b] =>
  let r := fresh "r" in let E := fresh "E" in let C := fresh "C" in let V := fresh "V" in
  destruct (op_mul_ok a b) as (r & E & C & V); [auto|auto|auto|auto|]; rewrite ?E, ?(op_mul_keeps _ _ _ E); cbn [bind]; clear E end.
Ltac add_step2 := match goal with |- context [op_add_nd ?a ?b] =>
  let r := fresh "r" in let E := fresh "E" in let C := fresh "C" in let V := fresh "V" in
  destruct (op_add_ok a b) as (r & E & C & V); [auto|auto|auto|auto|]; rewrite ?E, ?(op_add_keeps _ _ _ E); cbn [bind]; clear E end.
Ltac sub_step2 := match goal with |- context [op_sub_nd ?a ?b] =>
  let r := fresh "r" in let E := fresh "E" in let C := fresh "C" in let V := fresh "V" in
  destruct (op_sub_ok a b) as (r & E & C & V); [auto|auto|auto|auto|]; rewrite ?E, ?(op_sub_keeps _ _ _ E); cbn [bind]; clear E end.
Ltac steps2 := repeat first [mul_step2|add_step2|sub_step2].
Section Make.
Variables (x y : Frac) (a : Int).
Hypotheses (Px : cparts x) (Py : cparts y) (Ca : canonical a).
Ltac go := destruct Px as (Ct & Cb), Py as (Ct' & Cb');
  cbv delta [F_add F_sub F_mul F_div F_lt IF_add IF_sub IF_mul IF_div FI_add FI_sub FI_mul FI_div reciprocal
  F_add_nd F_sub_nd F_mul_nd F_div_nd F_lt_nd IF_add_nd IF_sub_nd IF_mul_nd IF_div_nd FI_add_nd FI_sub_nd FI_mul_nd FI_div_nd reciprocal_nd]; cbv beta;
  steps2; first [apply make_released; auto|idtac].
Lemma F_add_released : F_add_nd x y = released (F_add x y). Proof. go. Qed.
Lemma F_sub_released : F_sub_nd x y = released (F_sub x y). Proof. go. Qed.
Lemma F_mul_released : F_mul_nd x y = released (F_mul x y). Proof. go. Qed.
Lemma F_div_released : F_div_nd x y = released (F_div x y). Proof. go. Qed.
Lemma F_lt_released : F_lt_nd x y = F_lt x y. Proof. go. reflexivity. Qed.
Lemma IF_add_released : IF_add_nd a x = released (IF_add a x). Proof. go. Qed.
Lemma IF_sub_released : IF_sub_nd a x = released (IF_sub a x). Proof. go. Qed.
Lemma IF_mul_released : IF_mul_nd a x = released (IF_mul a x). Proof. go. Qed.
Lemma IF_div_released : IF_div_nd a x = released (IF_div a x). Proof. go. Qed.
Lemma FI_add_released : FI_add_nd x a = released (FI_add x a). Proof. go. Qed.
Lemma FI_sub_released : FI_sub_nd x a = released (FI_sub x a). Proof. go. Qed.
Lemma FI_mul_released : FI_mul_nd x a = released (FI_mul x a). Proof. go. Qed.
Lemma FI_div_released : FI_div_nd x a = released (FI_div x a). Proof. go. Qed.
Lemma reciprocal_released : reciprocal_nd x = released (reciprocal x). Proof. go. Qed.
Lemma pow_result_canonical u v r : canonical u -> wf v -> op_pow u v = Ok r -> canonical r.
Proof.
  intros Cu Wv. unfold op_pow. apply exp_released; auto.
  intros V. destruct Cu as (_ & _ & H). destruct (negative u); auto. exfalso. apply H; auto.
Qed.
Lemma F_pow_released : F_pow_nd x a = released (F_pow x a).
Proof.
  destruct Px as (Ct & Cb). assert (G : forall u v e, canonical u -> canonical v -> canonical e ->
    (t <- op_pow_nd u e ;; b <- op_pow_nd v e ;; Frac_make_nd t b) = released (t <- op_pow u e ;; b <- op_pow v e ;; Frac_make t b)).
  { intros u v e Cu Cv Ce. rewrite !op_pow_released by auto. destruct (op_pow u e) as [t|?| | |] eqn:Et; try reflexivity. apply pow_result_canonical in Et; auto. cbn [released bind].
    destruct (op_pow v e) as [b|?| | |] eqn:Eb; try reflexivity. apply pow_result_canonical in Eb; auto. cbn [released bind]. apply make_released; auto. }
  unfold F_pow, F_pow_nd, is_negative. destruct (abs_exponent a Ca) as (e & Ee & Ce & _). unfold is_negative in Ee. destruct (negative a).
  - rewrite Ee. cbn [bind]. apply G; auto.
  - apply G; auto.
Qed.
End Make.
Lemma parse_ok t : (exists x, Int_of_string t = Ok x /\ canonical x) \/ Int_of_string t = Throw InvalidArgument.
Proof. destruct (parse_cases t) as [(z & x & _ & E & C & _)|[_ E]]; eauto. Qed.
Lemma string_released s : Frac_of_string_nd s = released (Frac_of_string s).
Proof.
  unfold Frac_of_string, Frac_of_string_nd. destruct s as [|c s]; [unfold Frac_default; destruct (Int_of_int64_ok 0 0) as (z & Ez & _), (Int_of_int64_ok 1 0) as (o & Eo & _); try (unfold INT64_MIN, INT64_MAX; lia); rewrite Ez, Eo; reflexivity|].
  destruct (find_slash (c :: s)) as [[l r]|].
  - destruct (parse_ok l) as [(t & Et & Ct)|Et]; rewrite Et; [|reflexivity]. cbn [bind]. destruct (parse_ok r) as [(b & Eb & Cb)|Eb]; rewrite Eb; [|reflexivity]. cbn [bind bot].
    rewrite equals_int32_0 by auto. cbn [bind]. destruct (aval b =? 0); [reflexivity|]. apply normalize_released; auto.
  - destruct (parse_ok (c :: s)) as [(t & Et & Ct)|Et]; rewrite Et; [|reflexivity]. destruct (Int_of_int64_ok 1 0) as (b & Eb & _ & Cb & _); [unfold INT64_MIN, INT64_MAX; lia|]. cbn [bind]. rewrite Eb. cbn [bind bot].
    rewrite equals_int32_0 by auto. cbn [bind]. destruct (aval b =? 0); [reflexivity|]. apply normalize_released; auto.
Qed.
Lemma double_released x p : from_double_nd x p = released (from_double x p).
Proof.
  unfold from_double, from_double_nd. cbv zeta. destruct (negb (isFinite x)); [reflexivity|]. destruct (find_dot _) as [[l r]|]; [|reflexivity].
  destruct (parse_ok (l ++ r)) as [(t & Et & Ct)|Et]; rewrite Et; [|reflexivity]. cbn [bind].
  destruct (Int_of_int64_ok 1 0) as (b & Eb & Vb & Cb & _); [unfold INT64_MIN, INT64_MAX; lia|]. rewrite Eb. cbn [bind].
  replace (1 + Z.of_nat (length r) - 1) with (Z.of_nat (length r)) by lia. set (n := Z.of_nat (length r)).
  assert (G : exists q, times_power_ten b n = Ok q /\ okrep q).
  { destruct (Z.eq_dec n 0) as [E0|E0]; [exists b; split; [rewrite E0; reflexivity|auto]|].
    destruct (tpt_pos b n) as (q & Eq & Wq & Vq & Nq & Tq); [auto|unfold n in *; lia|]. exists q. split; [exact Eq|]. split; [exact Wq|]. intros _. apply Tq; [auto|]. left. rewrite Vb. pose proof (pw_pos 0). lia. }
  destruct G as (q & Eq & Oq). rewrite (times_power_ten_keeps _ _ _ Eq), Eq. unfold finish. cbn [fst snd bind]. apply make_released; auto.
Qed.

(** *** In place *)
Section Compound.
Variables (x : Frac) (y : option Frac) (a : Int).
Hypotheses (Px : cparts x) (Py : forall g, y = Some g -> cparts g) (Ca : canonical a).
Let g := rd x y.
Let tx := val (top x). Let bx := val (bot x). Let ty := val (top g). Let by_ := val (bot g).
Let sx := negative (bot x). Let sy := negative (bot g).
Lemma Pg2 : cparts g.
Proof. unfold g. destruct y; cbn; auto. Qed.
Ltac parts_ := pose proof Pg2 as RG; destruct RG as (CtG & CbG); destruct Px as (Ct & Cb).
Definition ended (p p' : fst_res) (t b : Z) (n : bool) : Prop := same_end p p' (b <> 0 \/ n = false -> left_frac t b (fst p')).
Lemma bot_gen2 t : exists r, mul_assign (bot (mkFrac t (bot x))) (bot_of y) = Ok r /\ okrep r /\ val r = bx * by_ /\ negative r = xorb sx sy.
Proof.
  parts_. cbn [bot]. destruct (mul_assign_gen (bot x) (bot_of y)) as (r & E & O & V & N); auto.
  { intros z. destruct y; cbn; [|discriminate]. intros [= <-]. apply (Py f eq_refl). }
  assert (R : rd (bot x) (bot_of y) = bot g) by (unfold g; destruct y; reflexivity). rewrite R in V, N.
  exists r. splits; auto.
Qed.
Lemma F_add_ended : ended (F_add_assign x y) (F_add_assign_nd x y) (tx * by_ + ty * bx) (bx * by_) (xorb sx sy).
Proof.
  unfold F_add_assign, F_addsub_assign, F_add_assign_nd, F_addsub_assign_nd. fold g. parts_. steps2. cbn [set_top fthen].
  destruct (bot_gen2 r1) as (b' & E' & O' & V' & N'). rewrite E', (mul_assign_keeps _ _ _ E'). cbn [set_bot fthen top].
  pose proof (normalize_nd_ends r1 b' ltac:(auto) O') as H. rewrite N', V', V1, V, V0 in H. exact H.
Qed.
Lemma F_sub_ended : ended (F_sub_assign x y) (F_sub_assign_nd x y) (tx * by_ - ty * bx) (bx * by_) (xorb sx sy).
Proof.
  unfold F_sub_assign, F_addsub_assign, F_sub_assign_nd, F_addsub_assign_nd. fold g. parts_. steps2. cbn [set_top fthen].
  destruct (bot_gen2 r1) as (b' & E' & O' & V' & N'). rewrite E', (mul_assign_keeps _ _ _ E'). cbn [set_bot fthen top].
  pose proof (normalize_nd_ends r1 b' ltac:(auto) O') as H. rewrite N', V', V1, V, V0 in H. exact H.
Qed.
Lemma F_mul_ended : ended (F_mul_assign x y) (F_mul_assign_nd x y) (tx * ty) (bx * by_) (xorb sx sy).
Proof.
  unfold F_mul_assign, F_mul_assign_nd. parts_.
  destruct (mul_assign_gen (top x) (top_of y)) as (r & E & O & V & _); auto.
  { intros z. destruct y; cbn; [|discriminate]. intros [= <-]. apply (Py f eq_refl). }
  assert (R : rd (top x) (top_of y) = top g) by (unfold g; destruct y; reflexivity). rewrite R in V.
  rewrite E, (mul_assign_keeps _ _ _ E). cbn [set_top fthen].
  destruct (bot_gen2 r) as (b' & E' & O' & V' & N'). rewrite E', (mul_assign_keeps _ _ _ E'). cbn [set_bot fthen top].
  pose proof (normalize_nd_ends r b' O O') as H. rewrite N', V', V in H. exact H.
Qed.
Lemma F_div_ended : ended (F_div_assign x y) (F_div_assign_nd x y) (tx * by_) (bx * ty) (xorb sx (ty <? 0)).
Proof.
  unfold F_div_assign, F_div_assign_nd. fold g. parts_. cbv zeta.
  destruct (mul_assign_gen (top x) (Some (bot g))) as (r & E & O & V & _); auto. { intros z [= <-]. auto. }
  rewrite E, (mul_assign_keeps _ _ _ E). cbn [set_top fthen bot].
  destruct (mul_assign_gen (bot x) (Some (top g))) as (b & E' & O' & V' & N'); auto. { intros z [= <-]. auto. }
  rewrite E', (mul_assign_keeps _ _ _ E'). cbn [set_bot fthen top]. cbn [rd] in *.
  pose proof (normalize_nd_ends r b O O') as H. rewrite N', V', V in H. rewrite (canonical_neg_eq _ CtG) in H. exact H.
Qed.
Lemma FI_add_ended : ended (FI_add_assign x a) (FI_add_assign_nd x a) (tx + bx * val a) bx sx.
Proof.
  unfold FI_add_assign, FI_add_assign_nd. destruct Px as (Ct & Cb). mul_step2.
  destruct (addsub_assign_ok false (top x) (Some r)) as (t & E' & C' & V'); auto. { intros z [= <-]. auto. }
  rewrite (add_assign_keeps _ _ _ E'). unfold add_assign. rewrite E'. cbn [set_top fthen rd] in *.
  pose proof (normalize_nd_ends t (bot x) ltac:(auto) ltac:(auto)) as H. rewrite V', V in H. exact H.
Qed.
Lemma FI_sub_ended : ended (FI_sub_assign x a) (FI_sub_assign_nd x a) (tx - bx * val a) bx sx.
Proof.
  unfold FI_sub_assign, FI_sub_assign_nd. destruct Px as (Ct & Cb). mul_step2.
  destruct (addsub_assign_ok true (top x) (Some r)) as (t & E' & C' & V'); auto. { intros z [= <-]. auto. }
  rewrite (sub_assign_keeps _ _ _ E'). unfold sub_assign. rewrite E'. cbn [set_top fthen rd] in *.
  pose proof (normalize_nd_ends t (bot x) ltac:(auto) ltac:(auto)) as H. rewrite V', V in H. exact H.
Qed.
Lemma FI_mul_ended : ended (FI_mul_assign x a) (FI_mul_assign_nd x a) (tx * val a) bx sx.
Proof.
  unfold FI_mul_assign, FI_mul_assign_nd. destruct Px as (Ct & Cb).
  destruct (mul_assign_gen (top x) (Some a)) as (r & E & O & V & _); auto. { intros z [= <-]. auto. }
  rewrite E, (mul_assign_keeps _ _ _ E). cbn [set_top fthen rd] in *.
  pose proof (normalize_nd_ends r (bot x) O ltac:(auto)) as H. rewrite V in H. exact H.
Qed.
Lemma FI_div_ended : ended (FI_div_assign x a) (FI_div_assign_nd x a) tx (bx * val a) (xorb sx (val a <? 0)).
Proof.
  unfold FI_div_assign, FI_div_assign_nd. destruct Px as (Ct & Cb).
  destruct (mul_assign_gen (bot x) (Some a)) as (r & E & O & V & N); auto. { intros z [= <-]. auto. }
  rewrite E, (mul_assign_keeps _ _ _ E). cbn [set_bot fthen rd] in *.
  pose proof (normalize_nd_ends (top x) r ltac:(auto) O) as H. rewrite N, V, (canonical_neg_eq a) in H by auto. exact H.
Qed.
Lemma F_pow_ended : same_end (F_pow_assign x a) (F_pow_assign_nd x a)
  ((exists e, power_taken 0 (Z.abs (val a)) e /\ 0 <= e /\ (bx ^ e <> 0 \/ 0 <= bx -> left_frac (tx ^ e) (bx ^ e) (fst (F_pow_assign_nd x a)))) \/
   (power_stops 0 (Z.abs (val a)) /\ fst (F_pow_assign_nd x a) = x)).
Proof.
  clear - Px Ca. destruct Px as (Ct & Cb). destruct (abs_exponent a Ca) as (n & En & Cn & Vn). unfold F_pow_assign, F_pow_assign_nd. rewrite En, <- Vn. unfold pow_assign_nd, pow_assign. cbn [rd].
  destruct (op_pow_both (bot x) (top x) n) as [(e & T & P & (b & Eb & Cb' & Vb) & (t & Et & Ct' & Vt))|(S1 & E1 & E2)]; auto; [lia| |].
  - rewrite Eb, (op_pow_keeps _ _ _ Eb). cbn [set_bot put_bot in_place fthen top fst snd]. rewrite Et, (op_pow_keeps _ _ _ Et). cbn [set_top put_top in_place fthen bot fst snd].
    unfold bx, tx. eapply same_end_weaken; [apply normalize_nd_ends; auto|]. intros H. left. exists e. splits; auto. rewrite Vb, Vt in *. intros Hb. apply H. destruct Hb as [Hb|Hb]; [auto|right].
    rewrite (canonical_neg_eq b Cb'), Vb. pose proof (Z.pow_nonneg (val (bot x)) e Hb). lia.
  - rewrite E1. rewrite op_pow_released, E1 by auto. left. cbn. splits; auto. right. split; auto. destruct x; reflexivity.
Qed.
End Compound.
