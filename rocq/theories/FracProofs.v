(** Lemmas about Frac: gcd, normalisation, constructors, operators. *)
From Coq Require Import QArith Qfield Qpower.
From Verif Require Import Base IntModel IntSpec IntBasics IntAddSub IntMul IntDiv IntMod IntScale IntPowDefined IntPowExact.
From Verif Require Import FracModel FracSpec.
From Coq Require Import ZifyBool.
Local Open Scope Z_scope.

(** Representations on which normalisation works: non-zero values are trimmed;
    zero may have any sign and any number of bins. *)
Definition okrep (x : Int) : Prop := wf x /\ (aval x <> 0 -> trimmed (bins x)).
Lemma canonical_okrep x : canonical x -> okrep x.
Proof. intros H. split; auto. Qed.
#[export] Hint Resolve canonical_okrep : core.
Lemma okrep_wf x : okrep x -> wf x.
Proof. intros H; apply H. Qed.
#[export] Hint Resolve okrep_wf : core.

Lemma abs_Int_okrep x : okrep x -> exists r, abs_Int x = Ok r /\ okrep r /\ val r = Z.abs (val x) /\ (canonical x -> canonical r).
Proof.
  intros [H T]. unfold abs_Int.
  destruct (Int_of_int64_ok 0 0) as [z [Ez [Vz [Cz _]]]]; [unfold INT64_MIN, INT64_MAX; lia|].
  rewrite Ez. cbn [bind]. rewrite op_lt_spec by auto. cbn [bind]. rewrite Vz.
  destruct (Z.ltb_spec (val x) (0 * pw 0)).
  - destruct (op_neg_ok x H) as (r & E & V & Eb & W & _ & _ & Cr). exists r. splits; auto; [|lia].
    split; auto. unfold aval. rewrite Eb. apply T.
  - exists x. splits; auto; [split; auto|lia].
Qed.

Lemma divide_okrep x y : okrep x -> wf y -> val y <> 0 -> div_safe (Z.abs (val x)) (Z.abs (val y)) ->
  exists r, divide x y = Ok r /\ canonical r /\ val r = Z.quot (val x) (val y).
Proof.
  intros [Hx Tx] Hy Ny S. destruct (Z.eq_dec (aval x) 0) as [E|E].
  - destruct (divide_gen x y Hx Hy) as [[H _]|[[_ [H Eq]]|[_ [H _]]]]; [contradiction| |].
    + exists (mkInt [0] false). splits; auto; [apply canonical_zero|].
      replace (val x) with 0 by (rewrite val_aval; destruct (negative x); lia).
      rewrite Z.quot_0_l by assumption. reflexivity.
    + exfalso. pose proof (aval_nonneg y Hy). apply Ny. rewrite val_aval. destruct (negative y); lia.
  - apply divide_safe; auto.
Qed.
Lemma divide_okrep_unsafe x y : okrep x -> wf y -> val y <> 0 -> ~ div_safe (Z.abs (val x)) (Z.abs (val y)) ->
  divide x y = Abort.
Proof.
  intros [Hx Tx] Hy Ny S. apply divide_unsafe; auto. apply Tx. intros E. apply S. left.
  rewrite !abs_val by auto. pose proof (aval_nonneg y Hy). assert (aval y <> 0); [|lia].
  intros E2. apply Ny. rewrite val_aval. destruct (negative y); lia.
Qed.

(** *** Greatest common divisors *)
Lemma gcd_safe_dec a b : 0 <= a -> 0 <= b -> gcd_safe a b \/ ~ gcd_safe a b.
Proof.
  intros Ha Hb. revert b Hb a Ha.
  apply (Zlt_0_ind (fun b => forall a, 0 <= a -> gcd_safe a b \/ ~ gcd_safe a b)).
  intros b IH Hb a Ha. destruct (Z.eq_dec b 0) as [->|E]; [left; constructor|].
  destruct (div_safe_dec a b Ha) as [D|D].
  - destruct (IH (a mod b)) with (a := b) as [G|G]; try ldiv.
    + left. constructor; auto. lia.
    + right. intros H. inversion H; subst; auto; lia.
  - right. intros H. inversion H; subst; auto; lia.
Qed.
Lemma norm_safe_dec t b : norm_safe t b \/ ~ norm_safe t b.
Proof.
  unfold norm_safe.
  destruct (gcd_safe_dec (Z.max (Z.abs t) (Z.abs b)) (Z.min (Z.abs t) (Z.abs b))); [lia|lia| |tauto].
  destruct (div_safe_dec (Z.abs t) (Z.gcd t b)); [lia| |tauto].
  destruct (div_safe_dec (Z.abs b) (Z.gcd t b)); [lia| |]; tauto.
Qed.
Lemma gcd_safe_small a b : 0 <= b -> b <= a -> a < B ^ 2 -> gcd_safe a b.
Proof.
  intros Hb. revert b Hb a.
  apply (Zlt_0_ind (fun b => forall a, b <= a -> a < B ^ 2 -> gcd_safe a b)).
  intros b IH Hb a Ha L. destruct (Z.eq_dec b 0) as [->|E]; [constructor|].
  constructor; [lia|apply div_safe_small; assumption|].
  apply IH; try ldiv; lia.
Qed.
Lemma norm_safe_small t b : Z.abs t < 10 ^ 18 -> Z.abs b < 10 ^ 18 -> norm_safe t b.
Proof.
  intros Ht Hb. change (10 ^ 18) with (B ^ 2) in *. unfold norm_safe. splits.
  - apply gcd_safe_small; lia.
  - apply div_safe_small; assumption.
  - apply div_safe_small; assumption.
Qed.
Lemma div_safe_1 a : 0 <= a -> div_safe a 1.
Proof.
  intros Ha. right. intros i Hi L H. exfalso.
  assert (0 < B ^ (i + 1)) by (apply Z.pow_pos_nonneg; lia).
  assert (1 <= a / B ^ (i + 1)) by (apply Z.div_le_lower_bound; lia). lia.
Qed.
Lemma norm_safe_one t : norm_safe t 1.
Proof.
  unfold norm_safe. rewrite Z.gcd_1_r. splits.
  - destruct (Z.eq_dec t 0) as [->|E].
    + change (Z.max (Z.abs 0) (Z.abs 1)) with 1. change (Z.min (Z.abs 0) (Z.abs 1)) with 0. constructor.
    + rewrite Z.max_l, Z.min_r by lia. change (Z.abs 1) with 1. constructor; [lia| |].
      * apply div_safe_1. lia.
      * rewrite Z.mod_1_r. constructor.
  - apply div_safe_1. lia.
  - apply div_safe_1. lia.
Qed.
Lemma norm_safe_abs t b t' b' : Z.abs t = Z.abs t' -> Z.abs b = Z.abs b' -> norm_safe t b -> norm_safe t' b'.
Proof.
  unfold norm_safe. intros Ht Hb. rewrite <- (Z.gcd_abs_l t b), <- (Z.gcd_abs_r (Z.abs t) b).
  rewrite <- (Z.gcd_abs_l t' b'), <- (Z.gcd_abs_r (Z.abs t') b'). rewrite Ht, Hb. auto.
Qed.
Lemma norm_safe_sym t b : norm_safe t b -> norm_safe b t.
Proof.
  unfold norm_safe. intros (H1 & H2 & H3). rewrite Z.max_comm, Z.min_comm, Z.gcd_comm. auto.
Qed.

Definition todo (b r : Z) : Z := if r =? 0 then 0 else 1 + Z.log2 (b * r).
Lemma todo_decr b r : 0 < r < b -> 1 + todo r (b mod r) <= todo b r.
Proof.
  intros H. unfold todo. destruct (Z.eqb_spec r 0); [lia|].
  destruct (Z.eqb_spec (b mod r) 0).
  - pose proof (Z.log2_nonneg (b * r)). lia.
  - assert (0 < b mod r < r) by ldiv.
    assert (2 * (b mod r) < b).
    { assert (1 <= b / r) by (apply Z.div_le_lower_bound; lia). pose proof (Z.div_mod b r ltac:(lia)). nia. }
    assert (L : 2 ^ 1 * (r * (b mod r)) <= b * r) by nia.
    apply Z.log2_le_mono in L. rewrite Z.mul_comm, Z.log2_mul_pow2 in L by nia. lia.
Qed.

Lemma val_nonneg_abs x : wf x -> 0 <= val x -> aval x = val x.
Proof. intros H N. rewrite <- abs_val by assumption. lia. Qed.

Lemma gcd_loop_ok : forall fuel a b, okrep a -> okrep b -> 0 <= val b <= val a ->
  (if val b =? 0 then 1 else 2 + todo (val b) (val a mod val b)) <= Z.of_nat fuel ->
  (gcd_safe (val a) (val b) -> exists g, gcd_loop fuel a b = Ok g /\ okrep g /\ val g = Z.gcd (val a) (val b) /\
     (canonical a -> canonical b -> canonical g)) /\
  (~ gcd_safe (val a) (val b) -> gcd_loop fuel a b = Abort).
Proof.
  induction fuel as [|f IH]; intros a b Ha Hb Hv Hf.
  { exfalso. unfold todo in Hf. destruct (val b =? 0); [lia|].
    destruct (_ =? 0); [lia|]. pose proof (Z.log2_nonneg (val b * (val a mod val b))). lia. }
  cbn [gcd_loop]. rewrite equals_int32_0 by auto. cbn [bind].
  assert (Eb : aval b = val b) by (apply val_nonneg_abs; auto; lia).
  assert (Ea : aval a = val a) by (apply val_nonneg_abs; auto; lia).
  rewrite Eb. destruct (Z.eqb_spec (val b) 0) as [Z0|Z0].
  - rewrite Z0. split; [|intros H; exfalso; apply H; constructor].
    intros _. exists a. splits; auto. rewrite Z.gcd_0_r. lia.
  - assert (Tb : trimmed (bins b)) by (apply Hb; lia).
    assert (Ta : trimmed (bins a)) by (apply Ha; lia).
    destruct (div_safe_dec (val a) (val b)) as [D|D]; [lia| |].
    + destruct (op_mod_ok a b) as [r [Er [Cr Vr]]]; auto; [rewrite !Z.abs_eq by lia; exact D|].
      rewrite Er. cbn [bind].
      assert (0 <= val a mod val b < val b) by ldiv.
      destruct (IH b r) as [H1 H2]; auto; [lia| |].
      { rewrite Vr. destruct (Z.eqb_spec (val a mod val b) 0) as [R|R].
        - unfold todo in Hf. rewrite R in Hf. change (0 =? 0) with true in Hf. cbv iota in Hf. lia.
        - pose proof (todo_decr (val b) (val a mod val b)). lia. }
      rewrite Vr in *. split; intros G.
      * inversion G; subst; [lia|]. destruct (H1 ltac:(assumption)) as (g & E1 & E2 & E3 & E4).
        exists g. splits; auto. rewrite E3. rewrite Z.gcd_comm, Z.gcd_mod by lia. apply Z.gcd_comm.
      * apply H2. intros G'. apply G. constructor; auto. lia.
    + rewrite op_mod_unsafe; auto; [|rewrite !Z.abs_eq by lia; exact D]. cbn [bind]. split; auto.
      intros G. inversion G; subst; [lia|contradiction].
Qed.

Lemma todo_bound x r : wf x -> 0 <= val x -> 0 <= r < val x -> todo (val x) r <= 60 * Z.of_nat (size x) + 1.
Proof.
  intros Hx Hp Hr. unfold todo. destruct (Z.eqb_spec r 0); [lia|].
  pose proof (bins_val_bound (bins x) (proj2 Hx)) as Bd. fold (aval x) in Bd.
  rewrite (val_nonneg_abs x Hx Hp) in Bd. fold (size x) in Bd.
  assert (P : pw (size x) <= 2 ^ (30 * Z.of_nat (size x))).
  { unfold pw. rewrite Z.pow_mul_r by lia. apply Z.pow_le_mono_l. split; [lia|]. vm_compute. discriminate. }
  assert (L : val x * r < 2 ^ (60 * Z.of_nat (size x))).
  { replace (60 * Z.of_nat (size x)) with (30 * Z.of_nat (size x) + 30 * Z.of_nat (size x)) by lia.
    rewrite Z.pow_add_r by lia. nia. }
  apply Z.log2_lt_pow2 in L; [|nia]. lia.
Qed.

Lemma GCD_ok x y : okrep x -> okrep y ->
  (gcd_safe (Z.max (Z.abs (val x)) (Z.abs (val y))) (Z.min (Z.abs (val x)) (Z.abs (val y))) ->
     exists g, GCD x y = Ok g /\ okrep g /\ val g = Z.gcd (val x) (val y) /\
       (canonical x -> canonical y -> canonical g)) /\
  (~ gcd_safe (Z.max (Z.abs (val x)) (Z.abs (val y))) (Z.min (Z.abs (val x)) (Z.abs (val y))) -> GCD x y = Abort).
Proof.
  intros Hx Hy. unfold GCD.
  destruct (abs_Int_okrep x Hx) as (a & Ea & Ha & Va & Ca). destruct (abs_Int_okrep y Hy) as (b & Eb & Hb & Vb & Cb).
  rewrite Ea, Eb. cbn [bind]. rewrite op_lt_spec by auto. cbn [bind]. rewrite Va, Vb.
  assert (Fu : forall a b, okrep a -> okrep b -> 0 <= val b <= val a ->
    (if val b =? 0 then 1 else 2 + todo (val b) (val a mod val b)) <= Z.of_nat (gcd_fuel b)).
  { clear. intros a b Ha Hb Hv. unfold gcd_fuel. destruct (Z.eqb_spec (val b) 0); [lia|].
    pose proof (todo_bound b (val a mod val b) (okrep_wf _ Hb) ltac:(lia) ltac:(ldiv)). lia. }
  assert (Gc : Z.gcd (val x) (val y) = Z.gcd (Z.abs (val x)) (Z.abs (val y)))
    by (rewrite Z.gcd_abs_l, Z.gcd_abs_r; reflexivity).
  rewrite Gc.
  destruct (Z.ltb_spec (Z.abs (val x)) (Z.abs (val y))) as [L|L]; unfold nochecks_gcd.
  - rewrite Z.max_r, Z.min_l by lia. rewrite Z.gcd_comm. rewrite <- Va, <- Vb.
    destruct (gcd_loop_ok (gcd_fuel a) b a) as [H1 H2]; auto; [lia|apply Fu; auto; lia|].
    split; auto. intros H. destruct (H1 H) as (g & ? & ? & ? & ?). exists g. splits; auto.
  - rewrite Z.max_l, Z.min_r by lia. rewrite <- Va, <- Vb.
    destruct (gcd_loop_ok (gcd_fuel b) a b) as [H1 H2]; auto; [lia|apply Fu; auto; lia|].
    split; auto. intros H. destruct (H1 H) as (g & ? & ? & ? & ?). exists g. splits; auto.
Qed.

(** *** Rationals *)
Lemma ratio_eq t b t' b' : b <> 0 -> b' <> 0 -> (ratio t b == ratio t' b')%Q <-> t * b' = t' * b.
Proof.
  intros Hb Hb'. unfold ratio.
  assert (Nb : ~ (inject_Z b == 0)%Q) by (change 0%Q with (inject_Z 0); rewrite inject_Z_injective; exact Hb).
  assert (Nb' : ~ (inject_Z b' == 0)%Q) by (change 0%Q with (inject_Z 0); rewrite inject_Z_injective; exact Hb').
  split; intros H.
  - apply inject_Z_injective. rewrite !inject_Z_mult.
    transitivity ((inject_Z t / inject_Z b) * inject_Z b * inject_Z b')%Q; [field; assumption|].
    rewrite H. field. assumption.
  - apply inject_Z_injective in H. rewrite !inject_Z_mult in H.
    transitivity ((inject_Z t * inject_Z b') / (inject_Z b * inject_Z b'))%Q; [field; auto|].
    rewrite H. field. auto.
Qed.

Theorem reduced_unique f g : reduced f -> reduced g -> (Fval f == Fval g)%Q -> f = g.
Proof.
  intros (Cf & Df & Pf & Gf) (Cg & Dg & Pg & Gg) H. unfold Fval in H.
  rewrite ratio_eq in H by lia.
  assert (E : val (bot f) = val (bot g)).
  { apply Z.divide_antisym_nonneg; try lia.
    - apply Z.gauss with (val (top f)); [exists (val (top g)); lia|]. rewrite Z.gcd_comm; assumption.
    - apply Z.gauss with (val (top g)); [exists (val (top f)); lia|]. rewrite Z.gcd_comm; assumption. }
  assert (E2 : val (top f) = val (top g)) by (rewrite E in H; nia).
  destruct f as [tf bf], g as [tg bg]. cbn [top bot] in *. f_equal; apply canonical_unique_lemma; auto.
Qed.

(** *** Normalisation *)
Lemma gcd_pos t b : b <> 0 -> 0 < Z.gcd t b.
Proof. intros H. pose proof (Z.gcd_nonneg t b). assert (Z.gcd t b <> 0); [|lia]. intros E. apply Z.gcd_eq_0_r in E. contradiction. Qed.

Lemma quot_gcd t b g : g = Z.gcd t b -> b > 0 -> Z.gcd (Z.quot t g) (Z.quot b g) = 1 /\ 0 < Z.quot b g /\ Z.quot t g * b = t * Z.quot b g.
Proof.
  intros -> Hb. pose proof (gcd_pos t b ltac:(lia)) as G.
  destruct (Z.gcd_divide_l t b) as [t' Et]. destruct (Z.gcd_divide_r t b) as [b' Eb].
  set (g := Z.gcd t b) in *.
  assert (Qt : Z.quot t g = t') by (rewrite Et; apply Z.quot_mul; lia).
  assert (Qb : Z.quot b g = b') by (rewrite Eb; apply Z.quot_mul; lia).
  rewrite Qt, Qb. splits.
  - assert (E : g * Z.gcd t' b' = g).
    { replace (g * Z.gcd t' b') with (Z.gcd (g * t') (g * b')) by (rewrite Z.gcd_mul_mono_l_nonneg by lia; reflexivity).
      rewrite (Z.mul_comm g t'), (Z.mul_comm g b'), <- Et, <- Eb. reflexivity. }
    nia.
  - nia.
  - clearbody g. clear - Et Eb. subst. ring.
Qed.

Lemma normalize_pos f : okrep (top f) -> canonical (bot f) -> 0 < val (bot f) ->
  (norm_safe (val (top f)) (val (bot f)) -> exists f', normalize f = (f', Ok tt) /\ reduced f' /\ (Fval f' == Fval f)%Q) /\
  (~ norm_safe (val (top f)) (val (bot f)) -> snd (normalize f) = Abort).
Proof.
  intros Ht Cb Pb. unfold normalize, norm_safe, is_negative.
  rewrite (canonical_neg_eq _ Cb). destruct (Z.ltb_spec (val (bot f)) 0); [lia|]. cbn [fthen].
  destruct (GCD_ok (top f) (bot f)) as [G1 G2]; auto.
  destruct (gcd_safe_dec (Z.max (Z.abs (val (top f))) (Z.abs (val (bot f)))) (Z.min (Z.abs (val (top f))) (Z.abs (val (bot f))))) as [G|G]; try lia.
  2: { rewrite (G2 G). cbn. split; intros; [tauto|reflexivity]. }
  destruct (G1 G) as (g & Eg & Hg & Vg & _). rewrite Eg.
  pose proof (gcd_pos (val (top f)) (val (bot f)) ltac:(lia)) as Gp.
  assert (Ng : val g <> 0) by lia. assert (Ag : Z.abs (val g) = Z.gcd (val (top f)) (val (bot f))) by lia.
  unfold div_assign; cbn [rd].
  destruct (div_safe_dec (Z.abs (val (top f))) (Z.gcd (val (top f)) (val (bot f)))) as [D1|D1]; [lia| |].
  2: { rewrite divide_okrep_unsafe; auto; [|rewrite Ag; exact D1]. cbn. split; intros; [tauto|reflexivity]. }
  destruct (divide_okrep (top f) g) as [t' [Et [Ct Vt]]]; auto; [rewrite Ag; exact D1|].
  rewrite Et. cbn [set_top fthen bot top].
  destruct (div_safe_dec (Z.abs (val (bot f))) (Z.gcd (val (top f)) (val (bot f)))) as [D2|D2]; [lia| |].
  2: { rewrite divide_okrep_unsafe; auto; [|rewrite Ag; exact D2]. cbn. split; intros; [tauto|reflexivity]. }
  destruct (divide_okrep (bot f) g) as [b' [Eb [Cb' Vb]]]; auto; [rewrite Ag; exact D2|].
  rewrite Eb. cbn [set_bot fthen bot top]. split; [|tauto]. intros _.
  eexists. split; [reflexivity|].
  destruct (quot_gcd (val (top f)) (val (bot f)) (val g) Vg ltac:(lia)) as (Q1 & Q2 & Q3).
  rewrite <- Vt, <- Vb in *. split.
  - unfold reduced. cbn [top bot]. auto.
  - unfold Fval. cbn [top bot]. apply ratio_eq; try lia.
Qed.

Lemma normalize_ok f : okrep (top f) -> canonical (bot f) -> val (bot f) <> 0 ->
  (norm_safe (val (top f)) (val (bot f)) -> exists f', normalize f = (f', Ok tt) /\ reduced f' /\ (Fval f' == Fval f)%Q) /\
  (~ norm_safe (val (top f)) (val (bot f)) -> snd (normalize f) = Abort).
Proof.
  intros Ht Cb Nb. destruct (Z_lt_le_dec 0 (val (bot f))) as [P|P]; [apply normalize_pos; auto|].
  destruct f as [t b]. cbn [top bot] in *.
  destruct (negate_ok b) as [b' [Eb [Vb [_ [Wb Hb]]]]]; auto.
  destruct (negate_ok t) as [t' [Et [Vt [Bt [Wt _]]]]]; auto.
  assert (Cb' : canonical b').
  { apply Hb; auto. }
  assert (Ot : okrep t') by (split; auto; unfold aval; rewrite Bt; apply Ht).
  assert (En : normalize (mkFrac t b) = normalize (mkFrac t' b')).
  { unfold normalize at 1. cbn [bot top]. unfold is_negative. rewrite (canonical_neg_eq _ Cb).
    destruct (Z.ltb_spec (val b) 0); [|lia]. rewrite Eb. cbn [set_bot fthen top bot]. rewrite Et. cbn [set_top fthen top bot].
    unfold normalize, is_negative. cbn [top bot]. rewrite (canonical_neg_eq _ Cb').
    destruct (Z.ltb_spec (val b') 0); [lia|]. reflexivity. }
  rewrite En.
  destruct (normalize_pos (mkFrac t' b')) as [H1 H2]; cbn [top bot]; auto; [lia|]. cbn [top bot] in *.
  split; intros S.
  - destruct H1 as [f' [E1 [E2 E3]]]; [revert S; apply norm_safe_abs; lia|].
    exists f'. splits; auto. rewrite E3. unfold Fval. cbn [top bot]. apply ratio_eq; lia.
  - apply H2. intros S'. apply S. revert S'; apply norm_safe_abs; lia.
Qed.

(** A zero denominator is not detected by normalisation, unless the numerator
    is zero as well. *)
Lemma canonical_0 x : canonical x -> val x = 0 -> x = mkInt [0] false.
Proof. intros C V. apply canonical_unique_lemma; auto. apply canonical_zero. Qed.
Lemma normalize_zero f : okrep (top f) -> canonical (bot f) -> val (bot f) = 0 ->
  (val (top f) = 0 /\ normalize f = (f, Throw DivideByZero)) \/
  (val (top f) <> 0 /\ ~ div_safe (Z.abs (val (top f))) (Z.abs (val (top f))) /\ snd (normalize f) = Abort) \/
  (val (top f) <> 0 /\ div_safe (Z.abs (val (top f))) (Z.abs (val (top f))) /\
     normalize f = (mkFrac (mkInt [1] (val (top f) <? 0)) (mkInt [0] false), Ok tt)).
Proof.
  intros Ht Cb Zb. unfold normalize, is_negative.
  rewrite (canonical_neg_eq _ Cb). destruct (Z.ltb_spec (val (bot f)) 0); [lia|]. cbn [fthen].
  destruct (GCD_ok (top f) (bot f)) as [G1 _]; auto.
  destruct G1 as (g & Eg & Hg & Vg & _).
  { rewrite Zb. change (Z.abs 0) with 0. rewrite Z.max_l, Z.min_r by lia. constructor. }
  rewrite Eg. rewrite Zb, Z.gcd_0_r in Vg. unfold div_assign. cbn [rd].
  destruct (Z.eq_dec (val (top f)) 0) as [E|E].
  - left. split; auto. rewrite divide_by_zero by (auto; lia). reflexivity.
  - right. assert (Ag : Z.abs (val g) = Z.abs (val (top f))) by lia.
    destruct (div_safe_dec (Z.abs (val (top f))) (Z.abs (val (top f)))) as [D|D]; [lia| |].
    + right. splits; auto. destruct (divide_okrep (top f) g) as [t' [Et [Ct Vt]]]; auto; [lia|rewrite Ag; exact D|].
      rewrite Et. cbn [set_top fthen bot top].
      destruct (divide_okrep (bot f) g) as [b' [Eb [Cb' Vb]]]; auto; [lia|left; lia|].
      rewrite Eb. cbn [set_bot top bot]. rewrite Zb, Z.quot_0_l in Vb by lia.
      rewrite (canonical_0 b') by auto. repeat f_equal.
      apply canonical_unique_lemma; auto.
      * destruct (val (top f) <? 0); apply canonicalb_spec; reflexivity.
      * rewrite Vt, Vg. destruct (Z.ltb_spec (val (top f)) 0).
        -- change (val (mkInt [1] true)) with (-1). replace (Z.abs (val (top f))) with (- val (top f)) by lia.
           rewrite Z.quot_opp_r, Z.quot_same by lia. reflexivity.
        -- change (val (mkInt [1] false)) with 1. rewrite Z.abs_eq by lia. apply Z.quot_same; lia.
    + left. splits; auto. rewrite divide_okrep_unsafe; auto; [lia|rewrite Ag; exact D].
Qed.

(** *** Constructors and binary operators *)
Lemma Frac_make_makes t b : okrep t -> canonical b -> makes (Frac_make t b) (val t) (val b).
Proof.
  intros Ht Cb. unfold Frac_make, makes. rewrite equals_int32_0 by auto. cbn [bind].
  assert (Z0 : aval b = 0 <-> val b = 0) by (rewrite <- abs_val by auto; lia).
  destruct (Z.eqb_spec (aval b) 0) as [E|E]; [left; tauto|]. right.
  destruct (normalize_ok (mkFrac t b)) as [H1 H2]; cbn [top bot]; auto; [tauto|]. cbn [top bot] in *.
  destruct (norm_safe_dec (val t) (val b)) as [S|S]; [right|left]; splits; auto; try tauto.
  - destruct (H1 S) as [f [E1 [E2 E3]]]. exists f. rewrite E1. splits; auto.
  - unfold result. rewrite (H2 S). reflexivity.
Qed.

Lemma makes_eq m t b t' b' : makes m t b -> t = t' -> b = b' -> makes m t' b'.
Proof. intros H <- <-. exact H. Qed.

Ltac mul_step := match goal with |- context [op_mul ?x ?y] =>
  let r := fresh "r" in let E := fresh "E" in let C := fresh "C" in let V := fresh "V" in
  destruct (op_mul_ok x y) as [r [E [C V]]]; auto; rewrite E; cbn [bind] end.
Ltac add_step := match goal with |- context [op_add ?x ?y] =>
  let r := fresh "r" in let E := fresh "E" in let C := fresh "C" in let V := fresh "V" in
  destruct (op_add_ok x y) as [r [E [C V]]]; auto; rewrite E; cbn [bind] end.
Ltac sub_step := match goal with |- context [op_sub ?x ?y] =>
  let r := fresh "r" in let E := fresh "E" in let C := fresh "C" in let V := fresh "V" in
  destruct (op_sub_ok x y) as [r [E [C V]]]; auto; rewrite E; cbn [bind] end.
Ltac make_done := eapply makes_eq; [apply Frac_make_makes; auto|..]; try congruence.

Definition parts (f : Frac) : Prop := canonical (top f) /\ canonical (bot f).
Lemma reduced_parts f : reduced f -> parts f.
Proof. intros H; split; apply H. Qed.
#[export] Hint Resolve reduced_parts : core.

Section Ops.
Variables (x y : Frac) (a : Int).
Hypotheses (Px : parts x) (Py : parts y) (Ca : canonical a).
Let tx := val (top x). Let bx := val (bot x). Let ty := val (top y). Let by_ := val (bot y).
Ltac vals := unfold tx, bx, ty, by_; lia.
Lemma F_add_makes : makes (F_add x y) (tx * by_ + ty * bx) (bx * by_).
Proof. destruct Px, Py. unfold F_add. repeat mul_step. add_step. repeat mul_step. make_done; vals. Qed.
Lemma F_sub_makes : makes (F_sub x y) (tx * by_ - ty * bx) (bx * by_).
Proof. destruct Px, Py. unfold F_sub. repeat mul_step. sub_step. repeat mul_step. make_done; vals. Qed.
Lemma F_mul_makes : makes (F_mul x y) (tx * ty) (bx * by_).
Proof. destruct Px, Py. unfold F_mul. repeat mul_step. make_done; vals. Qed.
Lemma F_div_makes : makes (F_div x y) (tx * by_) (bx * ty).
Proof. destruct Px, Py. unfold F_div. repeat mul_step. make_done; vals. Qed.
Lemma IF_add_makes : makes (IF_add a x) (val a * bx + tx) bx.
Proof. destruct Px. unfold IF_add. repeat mul_step. add_step. make_done; vals. Qed.
Lemma IF_sub_makes : makes (IF_sub a x) (val a * bx - tx) bx.
Proof. destruct Px. unfold IF_sub. repeat mul_step. sub_step. make_done; vals. Qed.
Lemma IF_mul_makes : makes (IF_mul a x) (val a * tx) bx.
Proof. destruct Px. unfold IF_mul. repeat mul_step. make_done; vals. Qed.
Lemma IF_div_makes : makes (IF_div a x) (val a * bx) tx.
Proof. destruct Px. unfold IF_div. repeat mul_step. make_done; vals. Qed.
Lemma FI_add_makes : makes (FI_add x a) (tx + val a * bx) bx.
Proof. destruct Px. unfold FI_add. repeat mul_step. add_step. make_done; vals. Qed.
Lemma FI_sub_makes : makes (FI_sub x a) (tx - val a * bx) bx.
Proof. destruct Px. unfold FI_sub. repeat mul_step. sub_step. make_done; vals. Qed.
Lemma FI_mul_makes : makes (FI_mul x a) (val a * tx) bx.
Proof. destruct Px. unfold FI_mul. repeat mul_step. make_done; vals. Qed.
Lemma FI_div_makes : makes (FI_div x a) tx (bx * val a).
Proof. destruct Px. unfold FI_div. repeat mul_step. make_done; vals. Qed.
Lemma reciprocal_makes : makes (reciprocal x) bx tx.
Proof. destruct Px. unfold reciprocal. make_done; vals. Qed.
End Ops.

(** *** Operators in place *)
Lemma normalize_leaves f : okrep (top f) -> canonical (bot f) -> val (bot f) <> 0 ->
  leaves (normalize f) (val (top f)) (val (bot f)).
Proof.
  intros Ht Cb Nb. destruct (normalize_ok f Ht Cb Nb) as [H1 H2].
  destruct (norm_safe_dec (val (top f)) (val (bot f))) as [S|S]; [left|right]; auto.
Qed.
Lemma leaves_eq p t b t' b' : leaves p t b -> t = t' -> b = b' -> leaves p t' b'.
Proof. intros H <- <-. exact H. Qed.

Lemma mul_assign_okrep x o : canonical x -> (forall y, o = Some y -> canonical y) ->
  exists r, mul_assign x o = Ok r /\ okrep r /\ val r = val x * val (rd x o) /\ (0 < val x -> canonical r).
Proof.
  intros Cx Co. assert (Cr : canonical (rd x o)) by (destruct o; cbn; auto).
  destruct (mul_assign_ok x o) as (r & E & W & V & N & T & T0); auto.
  assert (Ax : aval x = Z.abs (val x)) by (rewrite abs_val; auto).
  assert (Ar : aval r = Z.abs (val r)) by (rewrite abs_val; auto).
  exists r. splits; auto.
  - split; auto. intros Hr. apply T; auto. left. nia.
  - intros P. destruct r as [l n]. cbn [bins negative] in *. destruct W as [Wn Wd].
    apply mk_canonical; auto.
    + apply T; auto. left; lia.
    + intros ->. cbn [bins] in *. intros B0. change (bins_val l) with (aval (mkInt l true)) in B0.
      rewrite (canonical_neg_eq x Cx) in N. rewrite (canonical_neg_eq _ Cr) in N.
      destruct (Z.ltb_spec (val x) 0); [lia|]. destruct (Z.ltb_spec (val (rd x o)) 0); [|discriminate]. nia.
Qed.

Lemma zero_den_bot f : reduced f -> val (top f) = 0 -> val (bot f) = 1.
Proof. intros (_ & _ & P & G) E. rewrite E, Z.gcd_0_l in G. lia. Qed.

Section InPlace.
Variables (x : Frac) (y : option Frac) (a : Int).
Hypotheses (Rx : reduced x) (Ry : forall g, y = Some g -> reduced g) (Ca : canonical a).
Let g := rd x y.
Let tx := val (top x). Let bx := val (bot x). Let ty := val (top g). Let by_ := val (bot g).
Lemma Rg : reduced g.
Proof. unfold g. destruct y; cbn; auto. Qed.
Lemma bot_assign t : exists r, mul_assign (bot (mkFrac t (bot x))) (bot_of y) = Ok r /\ canonical r /\ val r = bx * by_.
Proof.
  pose proof Rg as RG. destruct Rx as (_ & Cb & Pb & _). cbn [bot].
  destruct (mul_assign_okrep (bot x) (bot_of y)) as (r & E & _ & V & C); auto.
  { intros z. destruct y; cbn; [|discriminate]. intros [= <-]. apply (Ry f eq_refl). }
  exists r. splits; auto. rewrite V. unfold bx, by_, g. destruct y; reflexivity.
Qed.
Ltac parts_ := pose proof Rg as RG; destruct RG as (CtG & CbG & PbG & GG); destruct Rx as (Ct & Cb & Pb & GX).
Ltac vals := unfold tx, bx, ty, by_ in *; cbn [top bot] in *; try nia.
Lemma F_add_assign_leaves : leaves (F_add_assign x y) (tx * by_ + ty * bx) (bx * by_).
Proof.
  unfold F_add_assign, F_addsub_assign. fold g. parts_.
  repeat mul_step. add_step. cbn [set_top fthen].
  destruct (bot_assign r1) as (b' & E' & C' & V'). rewrite E'. cbn [set_bot fthen].
  eapply leaves_eq; [apply normalize_leaves|..]; cbn [top bot]; auto; vals.
Qed.
Lemma F_sub_assign_leaves : leaves (F_sub_assign x y) (tx * by_ - ty * bx) (bx * by_).
Proof.
  unfold F_sub_assign, F_addsub_assign. fold g. parts_.
  repeat mul_step. sub_step. cbn [set_top fthen].
  destruct (bot_assign r1) as (b' & E' & C' & V'). rewrite E'. cbn [set_bot fthen].
  eapply leaves_eq; [apply normalize_leaves|..]; cbn [top bot]; auto; vals.
Qed.
Lemma F_mul_assign_leaves : leaves (F_mul_assign x y) (tx * ty) (bx * by_).
Proof.
  unfold F_mul_assign. parts_.
  destruct (mul_assign_okrep (top x) (top_of y)) as (r & E & O & V & _); auto.
  { intros z. destruct y; cbn; [|discriminate]. intros [= <-]. apply (Ry f eq_refl). }
  rewrite E. cbn [set_top fthen].
  destruct (bot_assign r) as (b' & E' & C' & V'). rewrite E'. cbn [set_bot fthen].
  eapply leaves_eq; [apply normalize_leaves|..]; cbn [top bot]; auto; vals.
  rewrite V. unfold g. destruct y; reflexivity.
Qed.
Lemma F_div_assign_eq : exists t b, F_div_assign x y = normalize (mkFrac t b) /\ okrep t /\ canonical b /\
  val t = tx * by_ /\ val b = bx * ty.
Proof.
  unfold F_div_assign. fold g. parts_.
  destruct (mul_assign_okrep (top x) (Some (bot g))) as (r & E & O & V & _); auto.
  { intros z [= <-]. auto. }
  rewrite E. cbn [set_top fthen bot].
  destruct (mul_assign_okrep (bot x) (Some (top g))) as (b & E' & _ & V' & C'); auto.
  { intros z [= <-]. auto. }
  rewrite E'. cbn [set_bot fthen top]. exists r, b. splits; auto.
Qed.
Lemma F_div_assign_leaves : ty <> 0 -> leaves (F_div_assign x y) (tx * by_) (bx * ty).
Proof.
  intros N. destruct F_div_assign_eq as (t & b & E & O & C & V1 & V2). rewrite E. parts_.
  eapply leaves_eq; [apply normalize_leaves|..]; cbn [top bot]; auto; vals.
Qed.
Lemma F_div_assign_zero : ty = 0 ->
  (tx = 0 /\ exists f, F_div_assign x y = (f, Throw DivideByZero) /\ val (top f) = 0 /\ val (bot f) = 0) \/
  (tx <> 0 /\ ~ div_safe (Z.abs tx) (Z.abs tx) /\ snd (F_div_assign x y) = Abort) \/
  (tx <> 0 /\ div_safe (Z.abs tx) (Z.abs tx) /\
     F_div_assign x y = (mkFrac (mkInt [1] (tx <? 0)) (mkInt [0] false), Ok tt)).
Proof.
  intros N. destruct F_div_assign_eq as (t & b & E & O & C & V1 & V2). rewrite E.
  assert (B1 : by_ = 1) by (apply zero_den_bot; auto using Rg). rewrite B1, Z.mul_1_r in V1. rewrite N, Z.mul_0_r in V2.
  destruct (normalize_zero (mkFrac t b)) as [H|[H|H]]; cbn [top bot] in *; auto; rewrite V1 in H.
  - left. split; [tauto|]. exists (mkFrac t b). splits; [tauto|cbn; lia|auto].
  - right; left; exact H.
  - right; right; exact H.
Qed.
Lemma FI_add_assign_leaves : leaves (FI_add_assign x a) (tx + bx * val a) bx.
Proof.
  unfold FI_add_assign. parts_. mul_step.
  unfold add_assign. destruct (addsub_assign_ok false (top x) (Some r)) as (t & E' & C' & V'); auto.
  { intros z [= <-]. auto. }
  rewrite E'. cbn [set_top fthen rd] in *.
  eapply leaves_eq; [apply normalize_leaves|..]; cbn [top bot]; auto; vals.
Qed.
Lemma FI_sub_assign_leaves : leaves (FI_sub_assign x a) (tx - bx * val a) bx.
Proof.
  unfold FI_sub_assign. parts_. mul_step.
  unfold sub_assign. destruct (addsub_assign_ok true (top x) (Some r)) as (t & E' & C' & V'); auto.
  { intros z [= <-]. auto. }
  rewrite E'. cbn [set_top fthen rd] in *.
  eapply leaves_eq; [apply normalize_leaves|..]; cbn [top bot]; auto; vals.
Qed.
Lemma FI_mul_assign_leaves : leaves (FI_mul_assign x a) (val a * tx) bx.
Proof.
  unfold FI_mul_assign. parts_.
  destruct (mul_assign_okrep (top x) (Some a)) as (r & E & O & V & _); auto.
  { intros z [= <-]. auto. }
  rewrite E. cbn [set_top fthen rd] in *.
  eapply leaves_eq; [apply normalize_leaves|..]; cbn [top bot]; auto; vals.
Qed.
Lemma FI_div_assign_eq : exists b, FI_div_assign x a = normalize (mkFrac (top x) b) /\ canonical b /\ val b = bx * val a.
Proof.
  unfold FI_div_assign. parts_.
  destruct (mul_assign_okrep (bot x) (Some a)) as (r & E & O & V & C); auto.
  { intros z [= <-]. auto. }
  rewrite E. cbn [set_bot fthen]. exists r. splits; auto.
Qed.
Lemma FI_div_assign_leaves : val a <> 0 -> leaves (FI_div_assign x a) tx (bx * val a).
Proof.
  intros N. destruct FI_div_assign_eq as (b & E & C & V). rewrite E. parts_.
  eapply leaves_eq; [apply normalize_leaves|..]; cbn [top bot]; auto; vals.
Qed.
Lemma FI_div_assign_zero : val a = 0 ->
  (tx = 0 /\ exists f, FI_div_assign x a = (f, Throw DivideByZero) /\ val (top f) = 0 /\ val (bot f) = 0) \/
  (tx <> 0 /\ ~ div_safe (Z.abs tx) (Z.abs tx) /\ snd (FI_div_assign x a) = Abort) \/
  (tx <> 0 /\ div_safe (Z.abs tx) (Z.abs tx) /\
     FI_div_assign x a = (mkFrac (mkInt [1] (tx <? 0)) (mkInt [0] false), Ok tt)).
Proof.
  intros N. destruct FI_div_assign_eq as (b & E & C & V). rewrite E. rewrite N, Z.mul_0_r in V.
  destruct (normalize_zero (mkFrac (top x) b)) as [H|[H|H]]; cbn [top bot] in *; auto; [apply canonical_okrep, Rx|].
  left. split; [tauto|]. exists (mkFrac (top x) b). splits; [tauto|cbn; tauto|auto].
Qed.
End InPlace.

(** *** Powers *)
Lemma F_pow_makes x a : parts x -> canonical a -> exact_exponent (Z.abs (val a)) ->
  makes (F_pow x a) (if val a <? 0 then val (bot x) ^ (- val a) else val (top x) ^ val a)
                    (if val a <? 0 then val (top x) ^ (- val a) else val (bot x) ^ val a).
Proof.
  intros [Ct Cb] Ca N. unfold F_pow, is_negative. rewrite (canonical_neg_eq a Ca).
  destruct (Z.ltb_spec (val a) 0) as [L|L].
  - destruct (op_neg_ok a) as (n & En & Vn & _ & Wn & _ & _ & Cn); auto. rewrite En. cbn [bind].
    rewrite Z.abs_neq in * by lia. specialize (Cn (canonical_trimmed _ Ca)). rewrite <- Vn in *.
    destruct (op_pow_right (bot x) n) as (t & Et & Ct' & Vt); auto; [lia|]. rewrite Et. cbn [bind].
    destruct (op_pow_right (top x) n) as (b & Eb & Cb' & Vb); auto; [lia|]. rewrite Eb. cbn [bind]. make_done.
  - rewrite Z.abs_eq in * by lia.
    destruct (op_pow_right (top x) a) as (t & Et & Ct' & Vt); auto. rewrite Et. cbn [bind].
    destruct (op_pow_right (bot x) a) as (b & Eb & Cb' & Vb); auto. rewrite Eb. cbn [bind]. make_done.
Qed.
Lemma F_pow_assign_leaves x a : reduced x -> canonical a -> exact_exponent (Z.abs (val a)) ->
  leaves (F_pow_assign x a) (val (top x) ^ Z.abs (val a)) (val (bot x) ^ Z.abs (val a)).
Proof.
  intros (Ct & Cb & Pb & _) Ca N. unfold F_pow_assign, is_negative. rewrite (canonical_neg_eq a Ca).
  assert (G : exists e, (if val a <? 0 then op_neg a else Ok a) = Ok e /\ canonical e /\ val e = Z.abs (val a)).
  { destruct (Z.ltb_spec (val a) 0).
    - destruct (op_neg_ok a) as (n & En & Vn & _ & Wn & _ & _ & Cn); auto. exists n. splits; auto. lia.
    - exists a. splits; auto. lia. }
  destruct G as (e & Ee & Ce & Ve). rewrite Ee. rewrite <- Ve in *. unfold pow_assign. cbn [rd].
  destruct (op_pow_right (bot x) e) as (b & Eb & Cb' & Vb); auto; [lia|]. rewrite Eb. cbn [set_bot fthen top].
  destruct (op_pow_right (top x) e) as (t & Et & Ct' & Vt); auto; [lia|]. rewrite Et. cbn [set_top fthen bot].
  eapply leaves_eq; [apply normalize_leaves|..]; cbn [top bot]; auto.
  rewrite Vb. apply Z.pow_nonzero; lia.
Qed.

(** *** The rational laws connecting numerators and denominators *)
Lemma inject_nz b : b <> 0 -> ~ (inject_Z b == 0)%Q.
Proof. intros H. change 0%Q with (inject_Z 0). rewrite inject_Z_injective. exact H. Qed.
#[export] Hint Resolve inject_nz : core.
Lemma ratio_0 t b : b <> 0 -> (ratio t b == 0)%Q <-> t = 0.
Proof.
  intros H. assert (E : (0 == ratio 0 1)%Q) by reflexivity. rewrite E, ratio_eq by lia. lia.
Qed.
Lemma ratio_add t b t' b' : b <> 0 -> b' <> 0 -> (ratio (t * b' + t' * b) (b * b') == ratio t b + ratio t' b')%Q.
Proof. intros. unfold ratio. rewrite inject_Z_plus, !inject_Z_mult. field. auto. Qed.
Lemma ratio_sub t b t' b' : b <> 0 -> b' <> 0 -> (ratio (t * b' - t' * b) (b * b') == ratio t b - ratio t' b')%Q.
Proof.
  intros. unfold ratio. unfold Z.sub. rewrite inject_Z_plus, inject_Z_opp, !inject_Z_mult. field. auto.
Qed.
Lemma ratio_mul t b t' b' : b <> 0 -> b' <> 0 -> (ratio (t * t') (b * b') == ratio t b * ratio t' b')%Q.
Proof. intros. unfold ratio. rewrite !inject_Z_mult. field. auto. Qed.
Lemma ratio_div t b t' b' : b <> 0 -> b' <> 0 -> t' <> 0 -> (ratio (t * b') (b * t') == ratio t b / ratio t' b')%Q.
Proof. intros. unfold ratio. rewrite !inject_Z_mult. field. auto. Qed.
Lemma ratio_int a : (ratio a 1 == inject_Z a)%Q.
Proof. unfold ratio. change (inject_Z 1) with 1%Q. field. Qed.
Lemma ratio_inv t b : t <> 0 -> b <> 0 -> (ratio b t == / ratio t b)%Q.
Proof. intros. unfold ratio. field. auto. Qed.
Lemma inject_Z_pow a n : 0 <= n -> (inject_Z (a ^ n) == inject_Z a ^ n)%Q.
Proof.
  intros Hn. revert n Hn. apply (natlike_ind (fun n => (inject_Z (a ^ n) == inject_Z a ^ n)%Q)).
  - reflexivity.
  - intros n Hn IH. rewrite Z.pow_succ_r by assumption. rewrite inject_Z_mult, IH.
    unfold Z.succ. destruct (Z.eq_dec a 0) as [->|E].
    + change (inject_Z 0) with 0%Q. rewrite Qmult_0_l. destruct (n + 1) eqn:En; try lia. 
      symmetry. apply (Qpower_positive_0 p).
    + rewrite Qpower_plus by auto. change (inject_Z a ^ 1)%Q with (inject_Z a). ring.
Qed.
Lemma ratio_pow t b n : 0 <= n -> b <> 0 -> (ratio (t ^ n) (b ^ n) == (ratio t b) ^ n)%Q.
Proof. intros Hn Hb. unfold ratio. rewrite !inject_Z_pow by assumption. rewrite Qdiv_power. reflexivity. Qed.
Lemma ratio_lt t b t' b' : 0 < b -> 0 < b' -> (ratio t b < ratio t' b')%Q <-> t * b' < t' * b.
Proof.
  intros Hb Hb'. unfold ratio.
  assert (Pb : (0 < inject_Z b)%Q) by (change 0%Q with (inject_Z 0); rewrite <- Zlt_Qlt; assumption).
  assert (Pb' : (0 < inject_Z b')%Q) by (change 0%Q with (inject_Z 0); rewrite <- Zlt_Qlt; assumption).
  rewrite Zlt_Qlt, !inject_Z_mult. split; intros H.
  - apply (Qmult_lt_r _ _ (inject_Z b * inject_Z b')) in H; [|apply Qmult_lt_0_compat; assumption].
    assert (E1 : (inject_Z t / inject_Z b * (inject_Z b * inject_Z b') == inject_Z t * inject_Z b')%Q) by (field; auto with zarith).
    assert (E2 : (inject_Z t' / inject_Z b' * (inject_Z b * inject_Z b') == inject_Z t' * inject_Z b)%Q) by (field; auto with zarith).
    rewrite E1, E2 in H. exact H.
  - apply (Qmult_lt_r _ _ (inject_Z b * inject_Z b')); [apply Qmult_lt_0_compat; assumption|].
    assert (E1 : (inject_Z t / inject_Z b * (inject_Z b * inject_Z b') == inject_Z t * inject_Z b')%Q) by (field; auto with zarith).
    assert (E2 : (inject_Z t' / inject_Z b' * (inject_Z b * inject_Z b') == inject_Z t' * inject_Z b)%Q) by (field; auto with zarith).
    rewrite E1, E2. exact H.
Qed.
