(** Arithmetic on fractions with a zero denominator. *)
From Coq Require Import QArith Qfield.
From Verif Require Import Base IntModel IntSpec IntBasics IntAddSub IntMul IntDiv IntMod IntScale IntPowDefined IntPowExact FracModel FracSpec FracProofs ExtSpec.
From Coq Require Import ZifyBool.
Local Open Scope Z_scope.

Lemma okrep_nz_canonical b : okrep b -> val b <> 0 -> canonical b.
Proof. intros [W T] N. split; auto. split; [|auto]. apply T. intros E. apply N. rewrite val_aval. destruct (negative b); lia. Qed.

Lemma normalize_zero_den t b : okrep t -> okrep b -> val b = 0 -> negative b = false ->
  (val t = 0 /\ normalize (mkFrac t b) = (mkFrac t b, Throw DivideByZero)) \/
  (val t <> 0 /\ ~ div_safe (Z.abs (val t)) (Z.abs (val t)) /\ snd (normalize (mkFrac t b)) = Abort) \/
  (val t <> 0 /\ div_safe (Z.abs (val t)) (Z.abs (val t)) /\ normalize (mkFrac t b) = (inf (val t <? 0), Ok tt)).
Proof.
  intros Ht Hb Zb Nb. unfold normalize, is_negative, inf. cbn [top bot]. rewrite Nb. cbn [fthen].
  destruct (GCD_ok t b Ht Hb) as [G1 _].
  destruct G1 as (g & Eg & Hg & Vg & _).
  { rewrite Zb. change (Z.abs 0) with 0. rewrite Z.max_l, Z.min_r by lia. constructor. }
  cbn [top bot]. rewrite Eg. rewrite Zb, Z.gcd_0_r in Vg. unfold div_assign. cbn [rd].
  destruct (Z.eq_dec (val t) 0) as [E|E].
  - left. split; auto. rewrite divide_by_zero by (auto; lia). reflexivity.
  - right. assert (Ag : Z.abs (val g) = Z.abs (val t)) by lia.
    destruct (div_safe_dec (Z.abs (val t)) (Z.abs (val t))) as [D|D]; [lia| |].
    + right. splits; auto. destruct (divide_okrep t g) as [t' [Et [Ct Vt]]]; auto; [lia|rewrite Ag; exact D|].
      rewrite Et. cbn [set_top fthen bot top].
      destruct (divide_okrep b g) as [b' [Eb [Cb' Vb]]]; auto; [lia|left; lia|].
      rewrite Eb. cbn [set_bot top bot]. rewrite Zb, Z.quot_0_l in Vb by lia.
      rewrite (canonical_0 b') by auto. repeat f_equal.
      apply canonical_unique_lemma; auto.
      * destruct (val t <? 0); apply canonicalb_spec; reflexivity.
      * rewrite Vt, Vg. destruct (Z.ltb_spec (val t) 0).
        -- change (val (mkInt [1] true)) with (-1). replace (Z.abs (val t)) with (- val t) by lia.
           rewrite Z.quot_opp_r, Z.quot_same by lia. reflexivity.
        -- change (val (mkInt [1] false)) with 1. rewrite Z.abs_eq by lia. apply Z.quot_same; lia.
    + left. splits; auto. rewrite divide_okrep_unsafe; auto; [lia|rewrite Ag; exact D].
Qed.
Lemma okrep_negate t : okrep t -> exists t', negate t = Ok t' /\ okrep t' /\ val t' = - val t /\ (val t' = 0 -> negative t' = false).
Proof.
  intros [W T]. destruct (negate_ok t W) as (t' & E & V & Bt & W' & Z & _). exists t'. splits; auto. split; auto. unfold aval. rewrite Bt. exact T.
Qed.
(** every way normalisation can end *)
Definition norm_ends (p : Frac * res unit) (t b : Z) (n : bool) : Prop :=
  (b <> 0 /\ leaves p t b) \/
  (b = 0 /\ t = 0 /\ exists f, p = (f, Throw DivideByZero) /\ is_nan f) \/
  (b = 0 /\ t <> 0 /\ ~ div_safe (Z.abs t) (Z.abs t) /\ snd p = Abort) \/
  (b = 0 /\ t <> 0 /\ div_safe (Z.abs t) (Z.abs t) /\ p = (inf (xorb n (t <? 0)), Ok tt)).
Lemma normalize_ends t b : okrep t -> okrep b -> norm_ends (normalize (mkFrac t b)) (val t) (val b) (negative b).
Proof.
  intros Ht Hb. unfold norm_ends. destruct (Z.eq_dec (val b) 0) as [E|E].
  - right. destruct (negative b) eqn:Nb.
    + destruct (okrep_negate t Ht) as (t' & Et & Ot & Vt & Nt). destruct (okrep_negate b Hb) as (b' & Eb & Ob & Vb & Nb').
      assert (En : normalize (mkFrac t b) = normalize (mkFrac t' b')).
      { unfold normalize at 1. cbn [bot top]. unfold is_negative. rewrite Nb, Eb. cbn [set_bot fthen top bot]. rewrite Et. cbn [set_top fthen top bot].
        unfold normalize, is_negative. cbn [top bot]. rewrite Nb' by lia. reflexivity. }
      rewrite En. destruct (normalize_zero_den t' b' Ot Ob) as [[H1 H2]|[(H1 & H2 & H3)|(H1 & H2 & H3)]]; [lia|apply Nb'; lia| | |].
      * left. splits; [auto|lia|]. rewrite H2. eexists. split; [reflexivity|]. unfold is_nan. cbn [top bot]. splits; auto. lia.
      * right. left. rewrite Vt, Z.abs_opp in H2. splits; auto. lia.
      * right. right. rewrite Vt, Z.abs_opp in H2. splits; auto; [lia|]. rewrite H3. do 2 f_equal. unfold xorb. destruct (Z.ltb_spec (val t) 0), (Z.ltb_spec (val t') 0); auto; lia.
    + destruct (normalize_zero_den t b Ht Hb E Nb) as [[H1 H2]|[(H1 & H2 & H3)|(H1 & H2 & H3)]].
      * left. splits; auto. rewrite H2. eexists. split; [reflexivity|]. unfold is_nan. cbn [top bot]. splits; auto.
      * right. left. auto.
      * right. right. splits; auto. rewrite H3. do 2 f_equal. destruct (val t <? 0); reflexivity.
  - left. split; auto. apply (normalize_leaves (mkFrac t b)); auto. cbn [bot]. apply okrep_nz_canonical; auto.
Qed.

(** *** The operators; denominators are not negative *)
Definition ext_parts (f : Frac) : Prop := canonical (top f) /\ canonical (bot f) /\ 0 <= val (bot f).
Lemma is_ext_parts f e : is_ext f e -> ext_parts f.
Proof.
  destruct e as [q|n]; cbn.
  - intros [(C1 & C2 & P & _) _]. split; [auto|]. split; [auto|lia].
  - intros ->. unfold ext_parts, inf. cbn [top bot]. splits; [destruct n; apply canonicalb_spec; reflexivity|apply canonicalb_spec; reflexivity|cbn; lia].
Qed.
Lemma canonical_nonneg_flag x : canonical x -> 0 <= val x -> negative x = false.
Proof. intros C P. rewrite (canonical_neg_eq x C). lia. Qed.
Lemma mul_assign_gen x o : canonical x -> (forall y, o = Some y -> canonical y) ->
  exists r, mul_assign x o = Ok r /\ okrep r /\ val r = val x * val (rd x o) /\ negative r = xorb (negative x) (negative (rd x o)).
Proof.
  intros Cx Co. assert (Cr : canonical (rd x o)) by (destruct o; cbn; auto).
  destruct (mul_assign_ok x o) as (r & E & W & V & N & T & T0); auto.
  exists r. splits; auto. split; auto. intros Hr. apply T; auto. left. intros E0. apply Hr.
  assert (val x = 0) by (rewrite val_aval; destruct (negative x); lia). rewrite <- abs_val by auto. rewrite V. lia.
Qed.
Section InPlace.
Variables (x : Frac) (y : option Frac) (a : Int).
Hypotheses (Px : ext_parts x) (Py : forall g, y = Some g -> ext_parts g) (Ca : canonical a).
Let g := rd x y.
Let tx := val (top x). Let bx := val (bot x). Let ty := val (top g). Let by_ := val (bot g).
Lemma Pg : ext_parts g.
Proof. unfold g. destruct y; cbn; auto. Qed.
Ltac parts_ := pose proof Pg as RG; destruct RG as (CtG & CbG & PbG); destruct Px as (Ct & Cb & Pb).
Lemma bot_gen t : exists r, mul_assign (bot (mkFrac t (bot x))) (bot_of y) = Ok r /\ okrep r /\ val r = bx * by_ /\ negative r = false.
Proof.
  parts_. cbn [bot]. destruct (mul_assign_gen (bot x) (bot_of y)) as (r & E & O & V & N); auto.
  { intros z. destruct y; cbn; [|discriminate]. intros [= <-]. apply (Py f eq_refl). }
  assert (R : rd (bot x) (bot_of y) = bot g) by (unfold g; destruct y; reflexivity). rewrite R in V, N.
  exists r. splits; auto. rewrite N, !canonical_nonneg_flag; auto.
Qed.
Lemma F_add_ends : norm_ends (F_add_assign x y) (tx * by_ + ty * bx) (bx * by_) false.
Proof.
  unfold F_add_assign, F_addsub_assign. fold g. parts_.
  repeat mul_step. add_step. cbn [set_top fthen].
  destruct (bot_gen r1) as (b' & E' & O' & V' & N'). rewrite E'. cbn [set_bot fthen top].
  pose proof (normalize_ends r1 b' ltac:(auto) O') as H. rewrite N', V', V1, V, V0 in H. exact H.
Qed.
Lemma F_sub_ends : norm_ends (F_sub_assign x y) (tx * by_ - ty * bx) (bx * by_) false.
Proof.
  unfold F_sub_assign, F_addsub_assign. fold g. parts_.
  repeat mul_step. sub_step. cbn [set_top fthen].
  destruct (bot_gen r1) as (b' & E' & O' & V' & N'). rewrite E'. cbn [set_bot fthen top].
  pose proof (normalize_ends r1 b' ltac:(auto) O') as H. rewrite N', V', V1, V, V0 in H. exact H.
Qed.
Lemma F_mul_ends : norm_ends (F_mul_assign x y) (tx * ty) (bx * by_) false.
Proof.
  unfold F_mul_assign. parts_.
  destruct (mul_assign_gen (top x) (top_of y)) as (r & E & O & V & _); auto.
  { intros z. destruct y; cbn; [|discriminate]. intros [= <-]. apply (Py f eq_refl). }
  assert (R : rd (top x) (top_of y) = top g) by (unfold g; destruct y; reflexivity). rewrite R in V.
  rewrite E. cbn [set_top fthen].
  destruct (bot_gen r) as (b' & E' & O' & V' & N'). rewrite E'. cbn [set_bot fthen top].
  pose proof (normalize_ends r b' O O') as H. rewrite N', V', V in H. exact H.
Qed.
Lemma F_div_ends : norm_ends (F_div_assign x y) (tx * by_) (bx * ty) (ty <? 0).
Proof.
  unfold F_div_assign. fold g. parts_.
  destruct (mul_assign_gen (top x) (Some (bot g))) as (r & E & O & V & _); auto. { intros z [= <-]. auto. }
  rewrite E. cbn [set_top fthen bot].
  destruct (mul_assign_gen (bot x) (Some (top g))) as (b & E' & O' & V' & N'); auto. { intros z [= <-]. auto. }
  rewrite E'. cbn [set_bot fthen top]. cbn [rd] in *.
  pose proof (normalize_ends r b O O') as H. rewrite N', V', V in H. rewrite (canonical_nonneg_flag (bot x)) in H by auto. rewrite Bool.xorb_false_l in H.
  rewrite (canonical_neg_eq _ CtG) in H. exact H.
Qed.
Lemma FI_add_ends : norm_ends (FI_add_assign x a) (tx + bx * val a) bx false.
Proof.
  unfold FI_add_assign. parts_. mul_step.
  unfold add_assign. destruct (addsub_assign_ok false (top x) (Some r)) as (t & E' & C' & V'); auto. { intros z [= <-]. auto. }
  rewrite E'. cbn [set_top fthen rd] in *.
  pose proof (normalize_ends t (bot x) ltac:(auto) ltac:(auto)) as H. rewrite V', V, (canonical_nonneg_flag (bot x)) in H by auto. exact H.
Qed.
Lemma FI_sub_ends : norm_ends (FI_sub_assign x a) (tx - bx * val a) bx false.
Proof.
  unfold FI_sub_assign. parts_. mul_step.
  unfold sub_assign. destruct (addsub_assign_ok true (top x) (Some r)) as (t & E' & C' & V'); auto. { intros z [= <-]. auto. }
  rewrite E'. cbn [set_top fthen rd] in *.
  pose proof (normalize_ends t (bot x) ltac:(auto) ltac:(auto)) as H. rewrite V', V, (canonical_nonneg_flag (bot x)) in H by auto. exact H.
Qed.
Lemma FI_mul_ends : norm_ends (FI_mul_assign x a) (tx * val a) bx false.
Proof.
  unfold FI_mul_assign. parts_.
  destruct (mul_assign_gen (top x) (Some a)) as (r & E & O & V & _); auto. { intros z [= <-]. auto. }
  rewrite E. cbn [set_top fthen rd] in *.
  pose proof (normalize_ends r (bot x) O ltac:(auto)) as H. rewrite V, (canonical_nonneg_flag (bot x)) in H by auto. exact H.
Qed.
Lemma FI_div_ends : norm_ends (FI_div_assign x a) tx (bx * val a) (val a <? 0).
Proof.
  unfold FI_div_assign. parts_.
  destruct (mul_assign_gen (bot x) (Some a)) as (r & E & O & V & N); auto. { intros z [= <-]. auto. }
  rewrite E. cbn [set_bot fthen rd] in *.
  pose proof (normalize_ends (top x) r ltac:(auto) O) as H. rewrite N, V, (canonical_nonneg_flag (bot x)), (canonical_neg_eq a), Bool.xorb_false_l in H by auto. exact H.
Qed.
End InPlace.

(** *** The results *)
Lemma ends_ext p t b n o : norm_ends p t b n ->
  (b <> 0 -> exists q, o = Some (Fin q) /\ (ratio t b == q)%Q) -> (b = 0 -> t = 0 -> o = None) ->
  (b = 0 -> t <> 0 -> o = Some (Inf (xorb n (t <? 0)))) -> leaves_ext p o.
Proof.
  intros [(N & H)|[(E & Et & f & -> & Hn)|[(E & N & D & H)|(E & N & D & ->)]]] H1 H2 H3; unfold leaves_ext.
  - destruct (H1 N) as (q & -> & Eq). destruct H as [(S & f & -> & R & V)|(S & ->)]; [|exact I]. cbn [fst snd]. exists (Fin q). split; auto.
    split; auto. rewrite V. exact Eq.
  - cbn [fst snd]. auto.
  - rewrite H. exact I.
  - cbn [fst snd]. rewrite (H3 E N). eauto. eexists. split; [reflexivity|]. reflexivity.
Qed.
Lemma fin_parts f q : is_ext f (Fin q) -> 0 < val (bot f) /\ (Fval f == q)%Q /\ (zero_Q q = true <-> val (top f) = 0) /\ neg_Q q = (val (top f) <? 0).
Proof.
  intros [(C1 & C2 & P & G) V]. splits; auto.
  - unfold zero_Q. rewrite Qeq_bool_iff, <- V. apply ratio_0. lia.
  - unfold neg_Q. assert (H : Qle_bool 0 q = true <-> 0 <= val (top f)).
    { rewrite Qle_bool_iff, <- V. unfold Fval, ratio.
      assert (0 < inject_Z (val (bot f)))%Q by (unfold Qlt; cbn; lia).
      split; intros H0.
      - assert (H2 : (0 * inject_Z (val (bot f)) <= inject_Z (val (top f)) / inject_Z (val (bot f)) * inject_Z (val (bot f)))%Q) by (apply Qmult_le_compat_r; [auto|apply Qlt_le_weak; auto]).
        rewrite Qmult_0_l, (Qmult_comm (_ / _)), Qmult_div_r in H2 by (intros E0; rewrite E0 in H; discriminate). unfold Qle in H2. cbn in H2. lia.
      - apply Qle_shift_div_l; auto. rewrite Qmult_0_l. unfold Qle. cbn. lia. }
    destruct (Qle_bool 0 q), (Z.ltb_spec (val (top f)) 0); cbn [negb]; auto.
    + assert (0 <= val (top f)) by (apply H; auto). lia.
    + assert (false = true) by (apply H; lia). discriminate.
Qed.
Lemma inf_parts f n : is_ext f (Inf n) -> val (bot f) = 0 /\ val (top f) = (if n then -1 else 1).
Proof. intros ->. unfold inf. cbn [top bot]. destruct n; auto. Qed.
Lemma ext_alias x y ey : is_ext (rd x y) ey -> is_ext x ey \/ y <> None -> forall g, y = Some g -> ext_parts g.
Proof. intros H _ g ->. eapply is_ext_parts; eauto. Qed.

Ltac ext_cases x y ex ey Hx Hy :=
  destruct ex as [p|n]; destruct ey as [q|m];
  [ pose proof (fin_parts _ _ Hx) as (Bx & Vx & Zx & Sx); pose proof (fin_parts _ _ Hy) as (By & Vy & Zy & Sy)
  | pose proof (fin_parts _ _ Hx) as (Bx & Vx & Zx & Sx); pose proof (inf_parts _ _ Hy) as (By & Ty)
  | pose proof (inf_parts _ _ Hx) as (Bx & Tx); pose proof (fin_parts _ _ Hy) as (By & Vy & Zy & Sy)
  | pose proof (inf_parts _ _ Hx) as (Bx & Tx); pose proof (inf_parts _ _ Hy) as (By & Ty) ].
Lemma xor_mul n t : t <> 0 -> ((if n : bool then -1 else 1) * t <? 0) = xorb n (t <? 0).
Proof. intros N. destruct n; unfold xorb; destruct (Z.ltb_spec t 0); lia. Qed.
Section Results.
Variables (x : Frac) (y : option Frac) (ex ey : ext).
Hypotheses (Hx : is_ext x ex) (Hy : is_ext (rd x y) ey).
Let Px : ext_parts x. Proof. eapply is_ext_parts; eauto. Qed.
Let Py : forall g, y = Some g -> ext_parts g. Proof. intros g ->. eapply is_ext_parts; exact Hy. Qed.
Lemma F_add_ext : leaves_ext (F_add_assign x y) (e_add ex ey).
Proof.
  eapply ends_ext; [apply F_add_ends; auto|..]; ext_cases x y ex ey Hx Hy; intros; cbn [e_add]; try nia;
    rewrite ?Bx, ?By, ?Tx, ?Ty in *; try nia; try reflexivity;
    try (exfalso; repeat match goal with b : bool |- _ => destruct b end; nia).
  - eexists. split; [reflexivity|]. rewrite ratio_add by lia. fold (Fval x) (Fval (rd x y)). rewrite Vx, Vy. reflexivity.
  - do 2 f_equal. rewrite Bool.xorb_false_l. destruct m; lia.
  - do 2 f_equal. rewrite Bool.xorb_false_l. destruct n; lia.
Qed.
Lemma F_sub_ext : leaves_ext (F_sub_assign x y) (e_add ex (e_opp ey)).
Proof.
  eapply ends_ext; [apply F_sub_ends; auto|..]; ext_cases x y ex ey Hx Hy; intros; cbn [e_add e_opp]; try nia;
    rewrite ?Bx, ?By, ?Tx, ?Ty in *; try nia; try reflexivity;
    try (exfalso; repeat match goal with b : bool |- _ => destruct b end; nia).
  - eexists. split; [reflexivity|]. rewrite ratio_sub by lia. fold (Fval x) (Fval (rd x y)). rewrite Vx, Vy. reflexivity.
  - do 2 f_equal. rewrite Bool.xorb_false_l. destruct m; cbn [negb]; lia.
  - do 2 f_equal. rewrite Bool.xorb_false_l. destruct n; lia.
Qed.
Lemma F_mul_ext : leaves_ext (F_mul_assign x y) (e_mul ex ey).
Proof.
  eapply ends_ext; [apply F_mul_ends; auto|..]; ext_cases x y ex ey Hx Hy; intros; cbn [e_mul]; try nia;
    rewrite ?Bx, ?By, ?Tx, ?Ty in *; try nia; try reflexivity;
    try (exfalso; repeat match goal with b : bool |- _ => destruct b end; nia).
  - eexists. split; [reflexivity|]. rewrite ratio_mul by lia. fold (Fval x) (Fval (rd x y)). rewrite Vx, Vy. reflexivity.
  - replace (zero_Q p) with true; auto. symmetry. apply Zx. destruct m; lia.
  - replace (zero_Q q) with true; auto. symmetry. apply Zy. destruct n; lia.
  - assert (val (top x) <> 0) by (destruct m; lia). destruct (zero_Q p); [exfalso; tauto|]. do 2 f_equal. rewrite Sx, Z.mul_comm, xor_mul, Bool.xorb_false_l by auto. reflexivity.
  - assert (val (top (rd x y)) <> 0) by (destruct n; lia). destruct (zero_Q q); [exfalso; tauto|]. do 2 f_equal. rewrite Sy, xor_mul, Bool.xorb_false_l by auto. reflexivity.
  - do 2 f_equal. destruct n, m; reflexivity.
Qed.
Lemma F_div_ext : leaves_ext (F_div_assign x y) (e_div ex ey).
Proof.
  eapply ends_ext; [apply F_div_ends; auto|..]; ext_cases x y ex ey Hx Hy; intros; cbn [e_div]; try nia;
    rewrite ?Bx, ?By, ?Tx, ?Ty in *; try nia; try reflexivity;
    try (exfalso; repeat match goal with b : bool |- _ => destruct b end; nia).
  - destruct (zero_Q q); [exfalso; nia|]. eexists. split; [reflexivity|]. rewrite ratio_div by lia. fold (Fval x) (Fval (rd x y)). rewrite Vx, Vy. reflexivity.
  - eexists. split; [reflexivity|]. rewrite Z.mul_0_r. apply ratio_0; auto.
  - assert (E : val (top (rd x y)) = 0) by nia. replace (zero_Q q) with true by (symmetry; tauto). replace (zero_Q p) with true; [auto|]. symmetry. apply Zx. nia.
  - assert (E : val (top (rd x y)) = 0) by nia. replace (zero_Q q) with true by (symmetry; tauto).
    assert (val (top x) <> 0) by nia. destruct (zero_Q p); [exfalso; tauto|]. do 2 f_equal. rewrite Sx, E. cbn [Z.ltb Z.compare]. rewrite Bool.xorb_false_l. nia.
  - do 2 f_equal. rewrite Sy. replace ((if n then -1 else 1) * val (bot (rd x y)) <? 0) with n by (destruct n; lia). apply Bool.xorb_comm.
Qed.
End Results.
Section IntResults.
Variables (x : Frac) (a : Int) (ex : ext).
Hypotheses (Hx : is_ext x ex) (Ca : canonical a).
Let Px : ext_parts x. Proof. eapply is_ext_parts; eauto. Qed.
Let na : Q := inject_Z (val a).
Lemma int_zero : zero_Q na = true <-> val a = 0.
Proof. unfold zero_Q, na. rewrite Qeq_bool_iff. unfold Qeq. cbn. lia. Qed.
Lemma int_neg : neg_Q na = (val a <? 0).
Proof. unfold neg_Q, na, Qle_bool. cbn [Qnum Qden inject_Z]. lia. Qed.
Lemma ratio_r_1 t : (ratio t 1 == inject_Z t)%Q.
Proof. apply ratio_int. Qed.
Lemma FI_add_ext : leaves_ext (FI_add_assign x a) (e_add ex (Fin na)).
Proof.
  eapply ends_ext; [apply (FI_add_ends x None); auto; discriminate|..];
    (destruct ex as [p|n]; [pose proof (fin_parts _ _ Hx) as (Bx & Vx & Zx & Sx)|pose proof (inf_parts _ _ Hx) as (Bx & Tx)]; intros); cbn [e_add e_opp e_mul e_div]; try lia; rewrite ?Bx, ?Tx in *; try nia; try reflexivity; pose proof int_zero as Za; pose proof int_neg as Sa;
      try (exfalso; repeat match goal with b : bool |- _ => destruct b end; nia).
  - eexists. split; [reflexivity|]. rewrite <- Vx. unfold na. rewrite <- ratio_r_1. unfold Fval. rewrite <- ratio_add by lia. apply ratio_eq; lia.
  - do 2 f_equal. rewrite Bool.xorb_false_l. destruct n; lia.
Qed.
Lemma FI_sub_ext : leaves_ext (FI_sub_assign x a) (e_add ex (e_opp (Fin na))).
Proof.
  eapply ends_ext; [apply (FI_sub_ends x None); auto; discriminate|..];
    (destruct ex as [p|n]; [pose proof (fin_parts _ _ Hx) as (Bx & Vx & Zx & Sx)|pose proof (inf_parts _ _ Hx) as (Bx & Tx)]; intros); cbn [e_add e_opp e_mul e_div]; try lia; rewrite ?Bx, ?Tx in *; try nia; try reflexivity; pose proof int_zero as Za; pose proof int_neg as Sa;
      try (exfalso; repeat match goal with b : bool |- _ => destruct b end; nia).
  - eexists. split; [reflexivity|]. rewrite <- Vx. unfold na. rewrite <- ratio_r_1. transitivity (Fval x - ratio (val a) 1)%Q; [|ring]. unfold Fval. rewrite <- ratio_sub by lia. apply ratio_eq; lia.
  - do 2 f_equal. rewrite Bool.xorb_false_l. destruct n; lia.
Qed.
Lemma FI_mul_ext : leaves_ext (FI_mul_assign x a) (e_mul ex (Fin na)).
Proof.
  eapply ends_ext; [apply (FI_mul_ends x None); auto; discriminate|..];
    (destruct ex as [p|n]; [pose proof (fin_parts _ _ Hx) as (Bx & Vx & Zx & Sx)|pose proof (inf_parts _ _ Hx) as (Bx & Tx)]; intros); cbn [e_add e_opp e_mul e_div]; try lia; rewrite ?Bx, ?Tx in *; try nia; try reflexivity; pose proof int_zero as Za; pose proof int_neg as Sa;
      try (exfalso; repeat match goal with b : bool |- _ => destruct b end; nia).
  - eexists. split; [reflexivity|]. rewrite <- Vx. unfold na. rewrite <- ratio_r_1. unfold Fval. rewrite <- ratio_mul by lia. apply ratio_eq; lia.
  - replace (zero_Q na) with true; auto. symmetry. apply Za. destruct n; lia.
  - assert (val a <> 0) by (destruct n; lia). destruct (zero_Q na); [exfalso; tauto|]. do 2 f_equal. rewrite Sa, xor_mul, Bool.xorb_false_l by auto. reflexivity.
Qed.
Lemma FI_div_ext : leaves_ext (FI_div_assign x a) (e_div ex (Fin na)).
Proof.
  eapply ends_ext; [apply (FI_div_ends x None); auto; discriminate|..];
    (destruct ex as [p|n]; [pose proof (fin_parts _ _ Hx) as (Bx & Vx & Zx & Sx)|pose proof (inf_parts _ _ Hx) as (Bx & Tx)]; intros); cbn [e_add e_opp e_mul e_div]; try lia; rewrite ?Bx, ?Tx in *; try nia; try reflexivity; pose proof int_zero as Za; pose proof int_neg as Sa;
      try (exfalso; repeat match goal with b : bool |- _ => destruct b end; nia).
  - destruct (zero_Q na); [exfalso; nia|]. eexists. split; [reflexivity|]. rewrite <- Vx. unfold na. rewrite <- ratio_r_1. unfold Fval. rewrite <- ratio_div by nia. apply ratio_eq; nia.
  - replace (zero_Q na) with true by (symmetry; apply Za; nia). replace (zero_Q p) with true; [auto|]. symmetry. apply Zx. auto.
  - assert (E : val a = 0) by nia. replace (zero_Q na) with true by (symmetry; tauto). destruct (zero_Q p); [exfalso; tauto|]. do 2 f_equal. rewrite Sx, E.
    cbn [Z.ltb Z.compare]. rewrite Bool.xorb_false_l. reflexivity.
  - do 2 f_equal. rewrite Sa. replace ((if n then -1 else 1) <? 0) with n by (destruct n; reflexivity). apply Bool.xorb_comm.
Qed.
End IntResults.

(** *** Operators that return a new Frac, comparisons *)
Lemma makes_ext m t b o : makes m t b -> (b <> 0 -> exists q, o = Some (Fin q) /\ (ratio t b == q)%Q) -> (b = 0 -> forall q, o <> Some (Fin q)) -> returns_ext m o.
Proof.
  intros [(E & ->)|[(N & S & ->)|(N & S & f & -> & R & V)]] H1 H2; unfold returns_ext; auto.
  destruct (H1 N) as (q & -> & Eq). exists q. split; auto. split; auto. rewrite V. auto.
Qed.
Section Binary.
Variables (x y : Frac) (ex ey : ext).
Hypotheses (Hx : is_ext x ex) (Hy : is_ext y ey).
Let Px : parts x. Proof. apply is_ext_parts in Hx. split; apply Hx. Qed.
Let Py : parts y. Proof. apply is_ext_parts in Hy. split; apply Hy. Qed.
Lemma F_add_bin : returns_ext (F_add x y) (e_add ex ey).
Proof.
  eapply makes_ext; [apply F_add_makes; auto; try exact (top x)|..];
    ext_cases x y ex ey Hx Hy; intros; cbn [e_add e_opp e_mul e_div]; try nia; try discriminate; rewrite ?Bx, ?By, ?Tx, ?Ty in *; try nia;
       try (exfalso; repeat match goal with b : bool |- _ => destruct b end; nia).
  eexists. split; [reflexivity|]. rewrite ratio_add by lia. fold (Fval x) (Fval y). rewrite Vx, Vy. reflexivity.
Qed.
Lemma F_sub_bin : returns_ext (F_sub x y) (e_add ex (e_opp ey)).
Proof.
  eapply makes_ext; [apply F_sub_makes; auto; try exact (top x)|..];
    ext_cases x y ex ey Hx Hy; intros; cbn [e_add e_opp e_mul e_div]; try nia; try discriminate; rewrite ?Bx, ?By, ?Tx, ?Ty in *; try nia;
       try (exfalso; repeat match goal with b : bool |- _ => destruct b end; nia).
  eexists. split; [reflexivity|]. rewrite ratio_sub by lia. fold (Fval x) (Fval y). rewrite Vx, Vy. reflexivity.
Qed.
Lemma F_mul_bin : returns_ext (F_mul x y) (e_mul ex ey).
Proof.
  eapply makes_ext; [apply F_mul_makes; auto; try exact (top x)|..];
    ext_cases x y ex ey Hx Hy; intros; cbn [e_add e_opp e_mul e_div]; try nia; try discriminate; rewrite ?Bx, ?By, ?Tx, ?Ty in *; try nia;
       try (exfalso; repeat match goal with b : bool |- _ => destruct b end; nia).
  - eexists. split; [reflexivity|]. rewrite ratio_mul by lia. fold (Fval x) (Fval y). rewrite Vx, Vy. reflexivity.
  - destruct (zero_Q p); discriminate.
  - destruct (zero_Q q); discriminate.
Qed.
Lemma F_div_bin : returns_ext (F_div x y) (e_div ex ey).
Proof.
  eapply makes_ext; [apply F_div_makes; auto; try exact (top x)|..];
    ext_cases x y ex ey Hx Hy; intros; cbn [e_add e_opp e_mul e_div]; try nia; try discriminate; rewrite ?Bx, ?By, ?Tx, ?Ty in *; try nia;
       try (exfalso; repeat match goal with b : bool |- _ => destruct b end; nia).
  - destruct (zero_Q q); [exfalso; nia|]. eexists. split; [reflexivity|]. rewrite ratio_div by lia. fold (Fval x) (Fval y). rewrite Vx, Vy. reflexivity.
  - eexists. split; [reflexivity|]. rewrite Z.mul_0_r. apply ratio_0; auto.
  - replace (zero_Q q) with true by (symmetry; apply Zy; nia). destruct (zero_Q p); discriminate.
Qed.
Lemma reciprocal_ext : returns_ext (reciprocal x) (e_div (Fin 1) ex).
Proof.
  eapply makes_ext; [apply reciprocal_makes; auto; try exact (top x)|..].
  - intros N. destruct ex as [p|n]; [pose proof (fin_parts _ _ Hx) as (Bx & Vx & Zx & Sx)|pose proof (inf_parts _ _ Hx) as (Bx & Tx)]; cbn [e_div].
    + destruct (zero_Q p); [exfalso; tauto|]. eexists. split; [reflexivity|]. rewrite ratio_inv by lia. fold (Fval x). rewrite Vx. field. rewrite <- Vx. unfold Fval. rewrite ratio_0 by lia. auto.
    + eexists. split; [reflexivity|]. rewrite Bx. apply ratio_0; auto.
  - intros E. destruct ex as [p|n]; [pose proof (fin_parts _ _ Hx) as (Bx & Vx & Zx & Sx)|pose proof (inf_parts _ _ Hx) as (Bx & Tx)]; cbn [e_div].
    + replace (zero_Q p) with true by (symmetry; tauto). change (zero_Q 1) with false. discriminate.
    + destruct n; lia.
Qed.
Lemma F_lt_ext : exists b, F_lt x y = Ok b /\ (b = true <-> e_lt ex ey).
Proof.
  destruct Px as [C1 C2]. destruct Py as [C3 C4]. unfold F_lt. repeat mul_step. rewrite op_lt_spec by auto. eexists. split; [reflexivity|]. rewrite Z.ltb_lt, V, V0.
  ext_cases x y ex ey Hx Hy; cbn [e_lt]; rewrite ?Bx, ?By, ?Tx, ?Ty.
  - rewrite <- Vx, <- Vy. unfold Fval. rewrite ratio_lt by lia. reflexivity.
  - destruct m; split; intros; try congruence; lia.
  - destruct n; split; intros; try congruence; lia.
  - lia.
Qed.
Lemma F_eq_ext : exists b, F_eq x y = Ok b /\ (b = true <-> e_eq ex ey).
Proof.
  destruct Px as [C1 C2]. destruct Py as [C3 C4]. unfold F_eq. rewrite op_eq_spec by auto. cbn [bind]. rewrite op_eq_spec by auto.
  exists ((val (top x) =? val (top y)) && (val (bot x) =? val (bot y))). split; [destruct (val (top x) =? val (top y)); reflexivity|].
  rewrite Bool.andb_true_iff, !Z.eqb_eq. ext_cases x y ex ey Hx Hy; cbn [e_eq]; rewrite ?Bx, ?By, ?Tx, ?Ty.
  - rewrite <- Vx, <- Vy. split.
    + intros [E1 E2]. unfold Fval. rewrite E1, E2. reflexivity.
    + intros E. apply reduced_unique in E; [subst; auto|apply Hx|apply Hy].
  - split; [lia|tauto].
  - split; [lia|tauto].
  - destruct n, m; split; intros; try congruence; auto; lia.
Qed.
End Binary.

(** *** Small numbers meet no assertion *)
Lemma ends_small p t b n : norm_ends p t b n -> Z.abs t < 10 ^ 18 -> Z.abs b < 10 ^ 18 -> snd p <> Abort.
Proof.
  intros [(N & [(S & f & -> & _)|(S & _)])|[(E & Et & f & -> & Hn)|[(E & N & D & H)|(E & N & D & ->)]]] L1 L2; try discriminate.
  - exfalso. apply S, norm_safe_small; auto.
  - exfalso. apply D. change (10 ^ 18) with (B ^ 2) in L1. apply div_safe_small. exact L1.
Qed.
Definition small : Z := 700000000.
Lemma within_prod x y : Z.abs x <= small -> Z.abs y <= small -> Z.abs (x * y) < 10 ^ 18 / 2.
Proof. unfold small. intros. rewrite Z.abs_mul. change (10 ^ 18 / 2) with 500000000000000000. nia. Qed.
Lemma in_place_small x y ex ey : is_ext x ex -> is_ext (rd x y) ey -> within small x -> within small (rd x y) ->
  snd (F_add_assign x y) <> Abort /\ snd (F_sub_assign x y) <> Abort /\ snd (F_mul_assign x y) <> Abort /\ snd (F_div_assign x y) <> Abort.
Proof.
  intros Hx Hy [W1 W2] [W3 W4].
  assert (Px : ext_parts x) by (eapply is_ext_parts; eauto). assert (Py : forall g, y = Some g -> ext_parts g) by (intros g ->; eapply is_ext_parts; exact Hy).
  pose proof (within_prod _ _ W1 W3). pose proof (within_prod _ _ W1 W4). pose proof (within_prod _ _ W2 W3). pose proof (within_prod _ _ W2 W4).
  change (10 ^ 18 / 2) with 500000000000000000 in *.
  splits; (eapply ends_small; [(apply F_add_ends || apply F_sub_ends || apply F_mul_ends || apply F_div_ends); auto|change (10 ^ 18) with 1000000000000000000; lia|change (10 ^ 18) with 1000000000000000000; lia]).
Qed.
