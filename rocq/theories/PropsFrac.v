(** Property theorems about Frac: C31-C36, C40. *)
From Coq Require Import QArith Qpower.
From Verif Require Import Base IntModel IntSpec IntBasics IntAddSub IntMul IntDiv IntMod IntPowExact FracModel FracSpec FracProofs.
From Coq Require Import ZifyBool.
Local Open Scope Z_scope.

Ltac exc := apply canonicalb_spec; vm_compute; reflexivity.
Definition i (k : Z) : Int := match Int_of_int64 k 0 with Ok x => x | _ => Int_default end.
Definition fr (t b : Z) : Frac := mkFrac (i t) (i b).
Definition e18 : Int := mkInt [0; 0; 1] false.              (* 10^18 *)
Ltac exr := unfold reduced; splits; [exc|exc|reflexivity|reflexivity].

(** ** C31 *)
Theorem C31_gcd : forall a b, canonical a -> canonical b ->
  (exists g, GCD a b = Ok g /\ canonical g /\ val g = Z.gcd (val a) (val b)) \/
  (GCD a b = Abort /\
   ~ gcd_safe (Z.max (Z.abs (val a)) (Z.abs (val b))) (Z.min (Z.abs (val a)) (Z.abs (val b)))).
Proof.
  intros a b Ha Hb. destruct (GCD_ok a b) as [H1 H2]; auto.
  destruct (gcd_safe_dec (Z.max (Z.abs (val a)) (Z.abs (val b))) (Z.min (Z.abs (val a)) (Z.abs (val b)))) as [G|G]; [lia|lia| |auto].
  left. destruct (H1 G) as (g & E & _ & V & C). eauto.
Qed.
Theorem C31_gcd_returns : forall a b, canonical a -> canonical b ->
  gcd_safe (Z.max (Z.abs (val a)) (Z.abs (val b))) (Z.min (Z.abs (val a)) (Z.abs (val b))) ->
  exists g, GCD a b = Ok g /\ canonical g /\ val g = Z.gcd (val a) (val b).
Proof. intros a b Ha Hb G. destruct (C31_gcd a b Ha Hb) as [H|[_ H]]; [auto|contradiction]. Qed.
Theorem C31_gcd_small : forall a b, canonical a -> canonical b ->
  Z.abs (val a) < 10 ^ 18 -> Z.abs (val b) < 10 ^ 18 ->
  exists g, GCD a b = Ok g /\ canonical g /\ val g = Z.gcd (val a) (val b).
Proof. intros a b Ha Hb La Lb. apply C31_gcd_returns; auto. apply gcd_safe_small; change (B ^ 2) with (10 ^ 18); lia. Qed.
Example C31_ex : GCD (i (-1234567890)) (i 987654321012) = Ok (i 6) /\ Z.gcd (-1234567890) 987654321012 = 6 /\
  GCD (i 1234567890) (i (-987654321012)) = Ok (i 6) /\ GCD (i (-9)) (i (-6)) = Ok (i 3) /\
  GCD e18 (i 3) = Abort.
Proof. vm_compute. auto. Qed.
Print Assumptions C31_gcd.
Print Assumptions C31_gcd_small.

(** ** C32 *)
Theorem C32_construct : forall t b, canonical t -> canonical b ->
  (val b = 0 /\ Frac_make t b = Throw DivideByZero) \/
  (val b <> 0 /\ ~ norm_safe (val t) (val b) /\ Frac_make t b = Abort) \/
  (val b <> 0 /\ norm_safe (val t) (val b) /\
     exists f, Frac_make t b = Ok f /\ reduced f /\ (Fval f == ratio (val t) (val b))%Q).
Proof. intros t b Ht Hb. exact (Frac_make_makes t b (canonical_okrep t Ht) Hb). Qed.
Theorem C32_construct_small : forall t b, canonical t -> canonical b -> val b <> 0 ->
  Z.abs (val t) < 10 ^ 18 -> Z.abs (val b) < 10 ^ 18 ->
  exists f, Frac_make t b = Ok f /\ reduced f /\ (Fval f == ratio (val t) (val b))%Q.
Proof.
  intros t b Ht Hb Nb L1 L2. destruct (C32_construct t b Ht Hb) as [[H _]|[(_ & H & _)|(_ & _ & H)]]; auto; [contradiction|].
  exfalso. apply H. apply norm_safe_small; auto.
Qed.
(** The other constructors. *)
Theorem C32_of_int : forall k, INT32_MIN <= k <= INT32_MAX ->
  exists f, Frac_of_int k = Ok f /\ reduced f /\ (Fval f == inject_Z k)%Q.
Proof.
  intros k Hk. unfold Frac_of_int.
  destruct (Int_of_int64_ok k 0) as (x & E & V & C & _); [unfold INT32_MIN, INT32_MAX, INT64_MIN, INT64_MAX in *; lia|].
  rewrite E. cbn [bind]. exists (mkFrac x (mkInt [1] false)). splits; [reflexivity| |].
  - unfold reduced. cbn [top bot]. splits; auto; [exc|reflexivity|]. apply Z.gcd_1_r.
  - unfold Fval. cbn [top bot]. change (val (mkInt [1] false)) with 1. rewrite ratio_int, V, pw_0, Z.mul_1_r. reflexivity.
Qed.
Theorem C32_of_Int : forall x, canonical x -> exists f, Frac_of_Int x = Ok f /\ reduced f /\ (Fval f == inject_Z (val x))%Q.
Proof.
  intros x C. exists (mkFrac x (mkInt [1] false)). splits; [reflexivity| |].
  - unfold reduced. cbn [top bot]. splits; auto; [exc|reflexivity|]. apply Z.gcd_1_r.
  - unfold Fval. cbn [top bot]. apply ratio_int.
Qed.
(** Reduced form is a normal form. *)
Theorem C32_unique : forall f g, reduced f -> reduced g -> (Fval f == Fval g)%Q -> f = g.
Proof. exact reduced_unique. Qed.
Example C32_ex : Frac_make (i 84) (i (-126)) = Ok (fr (-2) 3) /\ Frac_make (i 0) (i (-5)) = Ok (fr 0 1) /\
  Frac_make (i 7) (i 0) = Throw DivideByZero /\ Frac_make e18 (i 3) = Abort.
Proof. vm_compute. auto. Qed.
Example C32_ex_of : Frac_of_Int (i (-7)) = Ok (fr (-7) 1) /\ Frac_of_int 7 = Ok (fr 7 1).
Proof. vm_compute. auto. Qed.
Print Assumptions C32_construct.
Print Assumptions C32_construct_small.
Print Assumptions C32_of_int.
Print Assumptions C32_of_Int.
Print Assumptions C32_unique.

(** ** C33 : the binary operators. [gives m q S]: m returns the rational q in
    reduced form when S holds, and aborts otherwise. *)
Definition gives (m : res Frac) (q : Q) (S : Prop) : Prop :=
  (S /\ exists r, m = Ok r /\ reduced r /\ (Fval r == q)%Q) \/ (~ S /\ m = Abort).
Lemma makes_gives m t b q : makes m t b -> b <> 0 -> (ratio t b == q)%Q -> gives m q (norm_safe t b).
Proof.
  intros [[H _]|[(_ & S & H)|(_ & S & f & H & R & E)]] Nb Q; [contradiction|right; auto|left].
  split; auto. exists f. splits; auto. rewrite E. exact Q.
Qed.
Lemma den_pos f : reduced f -> 0 < val (bot f). Proof. intros R. apply R. Qed.
Lemma Fval_0 f : reduced f -> ((Fval f == 0)%Q <-> val (top f) = 0).
Proof. intros R. pose proof (den_pos f R). apply ratio_0. lia. Qed.
Section C33.
Variables (f g : Frac) (a : Int).
Hypotheses (Rf : reduced f) (Rg : reduced g) (Ca : canonical a).
Let tf := val (top f). Let bf := val (bot f). Let tg := val (top g). Let bg := val (bot g). Let na := val a.
Lemma bf_pos : 0 < bf. Proof. apply Rf. Qed.
Lemma bg_pos : 0 < bg. Proof. apply Rg. Qed.
Lemma tg_zero : (Fval g == 0)%Q <-> tg = 0.
Proof. pose proof bg_pos. unfold Fval. apply ratio_0. unfold bg in *. lia. Qed.
Lemma add_gives : gives (F_add f g) (Fval f + Fval g) (norm_safe (tf * bg + tg * bf) (bf * bg)).
Proof. pose proof bf_pos. pose proof bg_pos. apply makes_gives; [apply F_add_makes; auto; try exact x|nia|apply ratio_add; unfold bf, bg in *; lia]. Qed.
Lemma sub_gives : gives (F_sub f g) (Fval f - Fval g) (norm_safe (tf * bg - tg * bf) (bf * bg)).
Proof. pose proof bf_pos. pose proof bg_pos. apply makes_gives; [apply F_sub_makes; auto; try exact x|nia|apply ratio_sub; unfold bf, bg in *; lia]. Qed.
Lemma mul_gives : gives (F_mul f g) (Fval f * Fval g) (norm_safe (tf * tg) (bf * bg)).
Proof. pose proof bf_pos. pose proof bg_pos. apply makes_gives; [apply F_mul_makes; auto; try exact x|nia|apply ratio_mul; unfold bf, bg in *; lia]. Qed.
Lemma div_gives : ~ (Fval g == 0)%Q -> gives (F_div f g) (Fval f / Fval g) (norm_safe (tf * bg) (bf * tg)).
Proof.
  rewrite tg_zero. intros N. pose proof bf_pos. pose proof bg_pos.
  apply makes_gives; [apply F_div_makes; auto; try exact x|nia|apply ratio_div; unfold bf, bg, tg in *; lia].
Qed.
Lemma div_zero : (Fval g == 0)%Q -> F_div f g = Throw DivideByZero.
Proof.
  rewrite tg_zero. intros N. assert (M : makes (F_div f g) (tf * bg) (bf * tg)) by (apply F_div_makes; auto; try exact x). destruct M as [[_ H]|[(H & _)|(H & _)]]; auto; exfalso; apply H; fold tg; lia.
Qed.
Lemma ratio_l : (ratio (na * bf) bf == inject_Z na)%Q.
Proof. pose proof bf_pos. rewrite <- ratio_int. apply ratio_eq; lia. Qed.
Lemma ratio_plus u v b : b <> 0 -> (ratio (u + v) b == ratio u b + ratio v b)%Q.
Proof. intros H. unfold ratio. rewrite inject_Z_plus. field. auto. Qed.
Lemma ratio_opp u b : (ratio (- u) b == - ratio u b)%Q.
Proof. unfold ratio. rewrite inject_Z_opp. unfold Qdiv. ring. Qed.
Lemma int_add_gives : gives (IF_add a f) (inject_Z na + Fval f) (norm_safe (na * bf + tf) bf).
Proof.
  pose proof bf_pos. apply makes_gives; [apply IF_add_makes; auto|lia|].
  rewrite ratio_plus, ratio_l by lia. reflexivity.
Qed.
Lemma int_sub_gives : gives (IF_sub a f) (inject_Z na - Fval f) (norm_safe (na * bf - tf) bf).
Proof.
  pose proof bf_pos. apply makes_gives; [apply IF_sub_makes; auto|lia|].
  unfold Z.sub. rewrite ratio_plus, ratio_opp, ratio_l by lia. reflexivity.
Qed.
Lemma int_mul_gives : gives (IF_mul a f) (inject_Z na * Fval f) (norm_safe (na * tf) bf).
Proof.
  pose proof bf_pos. apply makes_gives; [apply IF_mul_makes; auto|lia|].
  unfold Fval, ratio. fold tf bf. rewrite inject_Z_mult. unfold Qdiv. ring.
Qed.
Lemma int_div_gives : ~ (Fval f == 0)%Q -> gives (IF_div a f) (inject_Z na / Fval f) (norm_safe (na * bf) tf).
Proof.
  pose proof bf_pos. unfold Fval. fold tf bf. rewrite ratio_0 by lia. intros N.
  apply makes_gives; [apply IF_div_makes; auto|lia|].
  unfold ratio. rewrite inject_Z_mult. field. split; auto with zarith.
Qed.
Lemma add_int_gives : gives (FI_add f a) (Fval f + inject_Z na) (norm_safe (tf + na * bf) bf).
Proof.
  pose proof bf_pos. apply makes_gives; [apply FI_add_makes; auto; try exact x|lia|].
  rewrite ratio_plus, ratio_l by lia. reflexivity.
Qed.
Lemma sub_int_gives : gives (FI_sub f a) (Fval f - inject_Z na) (norm_safe (tf - na * bf) bf).
Proof.
  pose proof bf_pos. apply makes_gives; [apply FI_sub_makes; auto; try exact x|lia|].
  unfold Z.sub. rewrite ratio_plus, ratio_opp, ratio_l by lia. reflexivity.
Qed.
Lemma mul_int_gives : gives (FI_mul f a) (Fval f * inject_Z na) (norm_safe (na * tf) bf).
Proof.
  pose proof bf_pos. apply makes_gives; [apply FI_mul_makes; auto; try exact x|lia|].
  unfold Fval, ratio. fold tf bf. rewrite inject_Z_mult. unfold Qdiv. ring.
Qed.
Lemma div_int_gives : na <> 0 -> gives (FI_div f a) (Fval f / inject_Z na) (norm_safe tf (bf * na)).
Proof.
  intros N. pose proof bf_pos. apply makes_gives; [apply FI_div_makes; auto; try exact x|nia|].
  unfold Fval, ratio. fold tf bf. rewrite inject_Z_mult. field. split; auto with zarith.
Qed.
Lemma int_div_zero : (Fval f == 0)%Q -> IF_div a f = Throw DivideByZero.
Proof.
  pose proof bf_pos. unfold Fval. rewrite ratio_0 by (fold bf; lia). intros N.
  assert (M : makes (IF_div a f) (na * bf) tf) by (apply IF_div_makes; auto). destruct M as [[_ E]|[(E & _)|(E & _)]]; auto; exfalso; apply E; fold tf; lia.
Qed.
Lemma div_int_zero : na = 0 -> FI_div f a = Throw DivideByZero.
Proof.
  intros N. assert (M : makes (FI_div f a) tf (bf * na)) by (apply FI_div_makes; auto; try exact x). destruct M as [[_ E]|[(E & _)|(E & _)]]; auto; exfalso; apply E; fold na; lia.
Qed.
End C33.

Theorem C33_frac_frac : forall f g, reduced f -> reduced g ->
  gives (F_add f g) (Fval f + Fval g) (norm_safe (val (top f) * val (bot g) + val (top g) * val (bot f)) (val (bot f) * val (bot g))) /\
  gives (F_sub f g) (Fval f - Fval g) (norm_safe (val (top f) * val (bot g) - val (top g) * val (bot f)) (val (bot f) * val (bot g))) /\
  gives (F_mul f g) (Fval f * Fval g) (norm_safe (val (top f) * val (top g)) (val (bot f) * val (bot g))) /\
  (~ (Fval g == 0)%Q -> gives (F_div f g) (Fval f / Fval g) (norm_safe (val (top f) * val (bot g)) (val (bot f) * val (top g)))) /\
  ((Fval g == 0)%Q -> F_div f g = Throw DivideByZero).
Proof.
  intros f g Rf Rg. splits; [apply add_gives|apply sub_gives|apply mul_gives|apply div_gives|apply div_zero]; auto using Int_default, Frac_default.
Qed.
Theorem C33_int_frac : forall a f, canonical a -> reduced f ->
  gives (IF_add a f) (inject_Z (val a) + Fval f) (norm_safe (val a * val (bot f) + val (top f)) (val (bot f))) /\
  gives (IF_sub a f) (inject_Z (val a) - Fval f) (norm_safe (val a * val (bot f) - val (top f)) (val (bot f))) /\
  gives (IF_mul a f) (inject_Z (val a) * Fval f) (norm_safe (val a * val (top f)) (val (bot f))) /\
  (~ (Fval f == 0)%Q -> gives (IF_div a f) (inject_Z (val a) / Fval f) (norm_safe (val a * val (bot f)) (val (top f)))) /\
  ((Fval f == 0)%Q -> IF_div a f = Throw DivideByZero).
Proof.
  intros a f Ca Rf. splits; [apply int_add_gives|apply int_sub_gives|apply int_mul_gives|apply int_div_gives|apply int_div_zero]; auto using Int_default, Frac_default.
Qed.
Theorem C33_frac_int : forall f a, reduced f -> canonical a ->
  gives (FI_add f a) (Fval f + inject_Z (val a)) (norm_safe (val (top f) + val a * val (bot f)) (val (bot f))) /\
  gives (FI_sub f a) (Fval f - inject_Z (val a)) (norm_safe (val (top f) - val a * val (bot f)) (val (bot f))) /\
  gives (FI_mul f a) (Fval f * inject_Z (val a)) (norm_safe (val a * val (top f)) (val (bot f))) /\
  (val a <> 0 -> gives (FI_div f a) (Fval f / inject_Z (val a)) (norm_safe (val (top f)) (val (bot f) * val a))) /\
  (val a = 0 -> FI_div f a = Throw DivideByZero).
Proof.
  intros f a Rf Ca. splits; [apply add_int_gives|apply sub_int_gives|apply mul_int_gives|apply div_int_gives|apply div_int_zero]; auto using Int_default, Frac_default.
Qed.
(** With components up to 7*10^8 nothing aborts. *)
Theorem C33_small : forall f g, reduced f -> reduced g ->
  Z.abs (val (top f)) <= 700000000 -> val (bot f) <= 700000000 -> Z.abs (val (top g)) <= 700000000 -> val (bot g) <= 700000000 ->
  (exists r, F_add f g = Ok r /\ reduced r /\ (Fval r == Fval f + Fval g)%Q) /\
  (exists r, F_sub f g = Ok r /\ reduced r /\ (Fval r == Fval f - Fval g)%Q) /\
  (exists r, F_mul f g = Ok r /\ reduced r /\ (Fval r == Fval f * Fval g)%Q) /\
  (~ (Fval g == 0)%Q -> exists r, F_div f g = Ok r /\ reduced r /\ (Fval r == Fval f / Fval g)%Q).
Proof.
  intros f g Rf Rg L1 L2 L3 L4.
  destruct (C33_frac_frac f g Rf Rg) as (H1 & H2 & H3 & H4 & _).
  pose proof (den_pos f Rf) as P1. pose proof (den_pos g Rg) as P2.
  assert (K : forall m q t b, gives m q (norm_safe t b) -> Z.abs t < 10 ^ 18 -> Z.abs b < 10 ^ 18 ->
     exists r, m = Ok r /\ reduced r /\ (Fval r == q)%Q).
  { intros m q t b [[_ H]|[H _]] B1 B2; [exact H|]. exfalso. apply H. apply norm_safe_small; auto. }
  change (10 ^ 18) with 1000000000000000000 in K.
  splits; [eapply K; [exact H1|nia|nia]|eapply K; [exact H2|nia|nia]|eapply K; [exact H3|nia|nia]|].
  intros N. eapply K; [exact (H4 N)|nia|nia].
Qed.
Example C33_ex : F_add (fr 1 6) (fr (-1) 10) = Ok (fr 1 15) /\ F_div (fr 1 6) (fr (-1) 10) = Ok (fr (-5) 3) /\
  IF_sub (i 2) (fr 1 3) = Ok (fr 5 3) /\ FI_div (fr 4 3) (i (-2)) = Ok (fr (-2) 3) /\
  F_div (fr 1 2) (fr 0 1) = Throw DivideByZero /\ reduced (fr (-5) 3).
Proof. splits; lazymatch goal with |- reduced _ => exr | _ => vm_compute; reflexivity end. Qed.
(** A product that aborts: 10^9 * (10^9 / 3). *)
Example C33_ex_abort : F_mul (mkFrac (i 1000000000) (i 1)) (mkFrac (i 1000000000) (i 3)) = Abort.
Proof. vm_compute. reflexivity. Qed.
Example C33_ex_mixed : IF_add (i 2) (fr 1 3) = Ok (fr 7 3) /\ IF_mul (i 2) (fr 3 4) = Ok (fr 3 2) /\ IF_div (i 2) (fr 4 3) = Ok (fr 3 2) /\
  FI_add (fr 1 3) (i 2) = Ok (fr 7 3) /\ FI_sub (fr 1 3) (i 2) = Ok (fr (-5) 3) /\ FI_mul (fr 3 4) (i (-2)) = Ok (fr (-3) 2) /\
  F_sub (fr 1 6) (fr (-1) 10) = Ok (fr 4 15) /\ F_mul (fr 3 4) (fr (-2) 9) = Ok (fr (-1) 6) /\ IF_div (i 2) (fr 0 1) = Throw DivideByZero.
Proof. vm_compute. auto 12. Qed.
Print Assumptions C33_frac_frac.
Print Assumptions C33_int_frac.
Print Assumptions C33_frac_int.
Print Assumptions C33_small.

(** ** C34 *)
Theorem C34_comparisons : forall f g, reduced f -> reduced g -> exists e l m,
  F_eq f g = Ok e /\ F_ne f g = Ok (negb e) /\ F_lt f g = Ok l /\ F_gt f g = Ok m /\
  F_le f g = Ok (negb m) /\ F_ge f g = Ok (negb l) /\
  (e = true <-> (Fval f == Fval g)%Q) /\ (l = true <-> (Fval f < Fval g)%Q) /\ (m = true <-> (Fval g < Fval f)%Q).
Proof.
  assert (L : forall f g, reduced f -> reduced g -> exists l, F_lt f g = Ok l /\ (l = true <-> (Fval f < Fval g)%Q)).
  { intros f g (Ct & Cb & Pb & _) (Ct' & Cb' & Pb' & _). unfold F_lt. repeat mul_step.
    rewrite op_lt_spec by auto. eexists. split; [reflexivity|]. unfold Fval. rewrite ratio_lt by assumption. rewrite V, V0. lia. }
  intros f g Rf Rg. destruct (L f g Rf Rg) as (l & E1 & H1). destruct (L g f Rg Rf) as (m & E2 & H2).
  exists ((val (top f) =? val (top g)) && (val (bot f) =? val (bot g))), l, m.
  assert (E : F_eq f g = Ok ((val (top f) =? val (top g)) && (val (bot f) =? val (bot g)))).
  { destruct Rf as (Ct & Cb & _), Rg as (Ct' & Cb' & _). unfold F_eq. rewrite !op_eq_spec by auto. cbn [bind].
    destruct (val (top f) =? val (top g)); reflexivity. }
  unfold F_ne, F_gt, F_le, F_ge. rewrite E, E1, E2. cbn [bind]. splits; auto.
  split; intros H.
  - unfold Fval. apply andb_true_iff in H as [Ha Hb]. apply Z.eqb_eq in Ha, Hb. rewrite Ha, Hb. reflexivity.
  - pose proof (reduced_unique f g Rf Rg H) as <-. rewrite !Z.eqb_refl. reflexivity.
Qed.
(** Equality of reduced fractions is identity of the objects' contents. *)
Theorem C34_eq_identity : forall f g, reduced f -> reduced g -> (F_eq f g = Ok true <-> f = g).
Proof.
  intros f g Rf Rg. destruct (C34_comparisons f g Rf Rg) as (e & l & m & E & _ & _ & _ & _ & _ & H & _).
  rewrite E. split.
  - intros [= ->]. apply reduced_unique; auto. tauto.
  - intros <-. f_equal. apply H. reflexivity.
Qed.
Example C34_ex : F_lt (fr (-2) 3) (fr (-5) 8) = Ok true /\ F_le (fr 1 3) (fr 333333333 1000000000) = Ok false /\
  F_eq (fr (-2) 3) (fr (-2) 3) = Ok true.
Proof. vm_compute. auto. Qed.
Example C34_ex_gt : F_gt (fr (-2) 3) (fr (-5) 8) = Ok false /\ F_gt (fr 1 2) (fr 1 3) = Ok true /\ F_gt (fr 1 2) (fr 1 2) = Ok false /\
  F_ge (fr 1 2) (fr 1 2) = Ok true /\ F_ge (fr 1 3) (fr 1 2) = Ok false /\ F_le (fr 1 2) (fr 1 2) = Ok true /\ F_lt (fr 1 2) (fr 1 2) = Ok false /\
  F_eq (fr 1 2) (fr 1 3) = Ok false /\ F_eq (fr 1 3) (fr 2 3) = Ok false.
Proof. vm_compute. auto 12. Qed.
Print Assumptions C34_comparisons.
Print Assumptions C34_eq_identity.

(** ** C35 *)
Inductive fop := FAdd | FSub | FMul | FDiv.
Definition Fbin (o : fop) : Frac -> Frac -> res Frac :=
  match o with FAdd => F_add | FSub => F_sub | FMul => F_mul | FDiv => F_div end.
Definition Fasg (o : fop) : Frac -> option Frac -> Frac * res unit :=
  match o with FAdd => F_add_assign | FSub => F_sub_assign | FMul => F_mul_assign | FDiv => F_div_assign end.
Definition FIbin (o : fop) : Frac -> Int -> res Frac :=
  match o with FAdd => FI_add | FSub => FI_sub | FMul => FI_mul | FDiv => FI_div end.
Definition FIasg (o : fop) : Frac -> Int -> Frac * res unit :=
  match o with FAdd => FI_add_assign | FSub => FI_sub_assign | FMul => FI_mul_assign | FDiv => FI_div_assign end.

(** The in-place operator leaves what the binary one returns, and aborts when it
    aborts. *)
Definition agrees (p : Frac * res unit) (m : res Frac) : Prop :=
  (exists r, m = Ok r /\ p = (r, Ok tt)) \/ (m = Abort /\ snd p = Abort).
Lemma makes_leaves m p t b : makes m t b -> leaves p t b -> b <> 0 -> agrees p m.
Proof.
  intros [[H _]|[(_ & S & H)|(_ & S & f & H & R & E)]] [[S' (f' & H' & R' & E')]|[S' H']] N; try contradiction; [right; auto|left].
  exists f. split; auto. rewrite H'. f_equal. apply reduced_unique; auto. rewrite E, E'. reflexivity.
Qed.
Theorem C35_assign_partial : forall o x y, reduced x -> (forall g, y = Some g -> reduced g) ->
  (o = FDiv -> ~ (Fval (rd x y) == 0)%Q) -> agrees (Fasg o x y) (Fbin o x (rd x y)).
Proof.
  intros o x y Rx Ry Hd. assert (Rg : reduced (rd x y)) by (destruct y; cbn; auto).
  pose proof (den_pos x Rx) as P1. pose proof (den_pos _ Rg) as P2.
  destruct o; cbn [Fasg Fbin].
  - eapply makes_leaves; [apply F_add_makes; auto; try exact x|apply F_add_assign_leaves; auto|nia].
  - eapply makes_leaves; [apply F_sub_makes; auto; try exact x|apply F_sub_assign_leaves; auto|nia].
  - eapply makes_leaves; [apply F_mul_makes; auto; try exact x|apply F_mul_assign_leaves; auto|nia].
  - specialize (Hd eq_refl). rewrite (Fval_0 _ Rg) in Hd.
    eapply makes_leaves; [apply F_div_makes; auto; try exact x|apply F_div_assign_leaves; auto|nia].
Qed.
Theorem C35_assign_int_partial : forall o x a, reduced x -> canonical a -> (o = FDiv -> val a <> 0) ->
  agrees (FIasg o x a) (FIbin o x a).
Proof.
  intros o x a Rx Ca Hd. pose proof (den_pos x Rx) as P1.
  destruct o; cbn [FIasg FIbin].
  - eapply makes_leaves; [apply FI_add_makes; auto; try exact x| |lia].
    eapply leaves_eq; [apply (FI_add_assign_leaves x None); auto; try discriminate|lia|reflexivity].
  - eapply makes_leaves; [apply FI_sub_makes; auto; try exact x| |lia].
    eapply leaves_eq; [apply (FI_sub_assign_leaves x None); auto; try discriminate|lia|reflexivity].
  - eapply makes_leaves; [apply FI_mul_makes; auto; try exact x|apply (FI_mul_assign_leaves x None); auto; try discriminate|lia].
  - specialize (Hd eq_refl). eapply makes_leaves; [apply FI_div_makes; auto; try exact x|apply (FI_div_assign_leaves x None); auto; try discriminate|nia].
Qed.
(** Missing: /= by zero throws. What it does instead, for every operand: 0 /= 0
    throws, but leaves the object 0/0; any other x silently becomes 1/0 or -1/0
    (or the program aborts). *)
Theorem C35_div_assign_zero : forall x y, reduced x -> (forall g, y = Some g -> reduced g) -> (Fval (rd x y) == 0)%Q ->
  (val (top x) = 0 /\ exists f, F_div_assign x y = (f, Throw DivideByZero) /\ val (top f) = 0 /\ val (bot f) = 0) \/
  (val (top x) <> 0 /\ ~ div_safe (Z.abs (val (top x))) (Z.abs (val (top x))) /\ snd (F_div_assign x y) = Abort) \/
  (val (top x) <> 0 /\ div_safe (Z.abs (val (top x))) (Z.abs (val (top x))) /\
     F_div_assign x y = (mkFrac (mkInt [1] (val (top x) <? 0)) (mkInt [0] false), Ok tt)).
Proof.
  intros x y Rx Ry Hz. assert (Rg : reduced (rd x y)) by (destruct y; cbn; auto).
  apply F_div_assign_zero; auto. apply Fval_0; auto.
Qed.
Theorem C35_div_assign_int_zero : forall x a, reduced x -> canonical a -> val a = 0 ->
  (val (top x) = 0 /\ exists f, FI_div_assign x a = (f, Throw DivideByZero) /\ val (top f) = 0 /\ val (bot f) = 0) \/
  (val (top x) <> 0 /\ ~ div_safe (Z.abs (val (top x))) (Z.abs (val (top x))) /\ snd (FI_div_assign x a) = Abort) \/
  (val (top x) <> 0 /\ div_safe (Z.abs (val (top x))) (Z.abs (val (top x))) /\
     FI_div_assign x a = (mkFrac (mkInt [1] (val (top x) <? 0)) (mkInt [0] false), Ok tt)).
Proof. intros x a Rx Ca Hz. apply (FI_div_assign_zero x None); auto; try discriminate. Qed.
Theorem C35_div_assign_zero_refuted :
  F_div_assign (fr 3 4) (Some (fr 0 1)) = (fr 1 0, Ok tt) /\ FI_div_assign (fr (-3) 4) (i 0) = (fr (-1) 0, Ok tt) /\
  F_div_assign (fr 0 1) None = (fr 0 0, Throw DivideByZero).
Proof. vm_compute. auto. Qed.
Example C35_ex : F_add_assign (fr 1 6) None = (fr 1 3, Ok tt) /\ F_div_assign (fr (-2) 3) None = (fr 1 1, Ok tt) /\
  F_sub_assign (fr 1 6) (Some (fr 1 10)) = (fr 1 15, Ok tt) /\ FI_mul_assign (fr 1 6) (i (-4)) = (fr (-2) 3, Ok tt) /\
  F_mul_assign (fr (-1) 6) (Some (fr 0 1)) = (fr 0 1, Ok tt).
Proof. vm_compute. auto. Qed.
Print Assumptions C35_assign_partial.
Print Assumptions C35_assign_int_partial.
Print Assumptions C35_div_assign_zero.
Print Assumptions C35_div_assign_int_zero.
Print Assumptions C35_div_assign_zero_refuted.

(** ** C36 *)
Theorem C36_pow : forall f n, reduced f -> canonical n -> exact_exponent (Z.abs (val n)) ->
  ((Fval f == 0)%Q /\ val n < 0 /\ F_pow f n = Throw DivideByZero) \/
  (((Fval f == 0)%Q -> 0 <= val n) /\
   gives (F_pow f n) (Fval f ^ val n)
     (norm_safe (val (top f) ^ Z.abs (val n)) (val (bot f) ^ Z.abs (val n)))).
Proof.
  intros f n Rf Cn Hn. pose proof (den_pos f Rf) as P.
  pose proof (F_pow_makes f n (reduced_parts f Rf) Cn Hn) as M. unfold Fval. rewrite ratio_0 by lia.
  destruct (Z.ltb_spec (val n) 0) as [L|L].
  - destruct (Z.eq_dec (val (top f)) 0) as [E|E].
    + left. splits; auto. rewrite E in M. rewrite (Z.pow_0_l (- val n)) in M by lia.
      destruct M as [[_ H]|[(H & _)|(H & _)]]; auto; contradiction.
    + right. split; [contradiction|]. rewrite Z.abs_neq by lia.
      apply (makes_gives _ _ _ (ratio (val (top f)) (val (bot f)) ^ val n)) in M.
      * destruct M as [[S M]|[S M]]; [left|right]; split; auto; [apply norm_safe_sym; exact S|].
        intros S'. apply S. apply norm_safe_sym. exact S'.
      * apply Z.pow_nonzero; lia.
      * rewrite ratio_inv by (apply Z.pow_nonzero; lia). rewrite ratio_pow by lia.
        rewrite Qpower_opp, Qinv_involutive. reflexivity.
  - right. split; auto. rewrite Z.abs_eq by lia. apply makes_gives; auto.
    + apply Z.pow_nonzero; lia.
    + apply ratio_pow; lia.
Qed.
(** f ^= n for n >= 0 agrees with f ^ n. *)
Theorem C36_pow_assign_partial : forall f n, reduced f -> canonical n -> 0 <= val n -> exact_exponent (val n) ->
  agrees (F_pow_assign f n) (F_pow f n).
Proof.
  intros f n Rf Cn Hn G. pose proof (den_pos f Rf) as P. rewrite <- (Z.abs_eq (val n) Hn) in G.
  pose proof (F_pow_makes f n (reduced_parts f Rf) Cn G) as M.
  pose proof (F_pow_assign_leaves f n Rf Cn G) as L.
  destruct (Z.ltb_spec (val n) 0); [lia|]. rewrite Z.abs_eq in L by lia.
  eapply makes_leaves; eauto. apply Z.pow_nonzero; lia.
Qed.
(** Missing: negative n, where f ^= n leaves f^|n| instead of f^n. *)
Theorem C36_pow_assign_negative : forall f n, reduced f -> canonical n -> val n < 0 -> exact_exponent (- val n) ->
  (norm_safe (val (top f) ^ (- val n)) (val (bot f) ^ (- val n)) /\
   exists r, F_pow_assign f n = (r, Ok tt) /\ reduced r /\ (Fval r == Fval f ^ (- val n))%Q) \/
  (~ norm_safe (val (top f) ^ (- val n)) (val (bot f) ^ (- val n)) /\ snd (F_pow_assign f n) = Abort).
Proof.
  intros f n Rf Cn Hn G. pose proof (den_pos f Rf) as P. rewrite <- Z.abs_neq in G by lia.
  pose proof (F_pow_assign_leaves f n Rf Cn G) as L. rewrite Z.abs_neq in L by lia.
  destruct L as [(S & r & H & R & E)|L]; [left|right; exact L]. split; auto. exists r. splits; auto.
  rewrite E. apply ratio_pow; lia.
Qed.
Theorem C36_pow_assign_refuted : F_pow (fr 2 3) (i (-2)) = Ok (fr 9 4) /\ F_pow_assign (fr 2 3) (i (-2)) = (fr 4 9, Ok tt) /\
  reduced (fr 2 3).
Proof. splits; lazymatch goal with |- reduced _ => exr | _ => vm_compute; reflexivity end. Qed.
Example C36_ex : F_pow (fr (-2) 3) (i 5) = Ok (fr (-32) 243) /\ F_pow (fr 0 1) (i (-1)) = Throw DivideByZero /\
  F_pow (fr 0 1) (i 0) = Ok (fr 1 1) /\ F_pow (fr (-2) 3) (i (-3)) = Ok (fr (-27) 8) /\
  F_pow_assign (fr 2 3) (i (-1)) = (fr 2 3, Ok tt).
Proof. vm_compute. auto. Qed.
(** In particular every exponent below 10^9 in magnitude. *)
Theorem C36_small_exponents : forall n, Z.abs (val n) < 10 ^ 9 -> exact_exponent (Z.abs (val n)).
Proof. intros n H. apply small_exact_exponent. lia. Qed.
Print Assumptions C36_pow.
Print Assumptions C36_pow_assign_partial.
Print Assumptions C36_pow_assign_negative.
Print Assumptions C36_pow_assign_refuted.
Print Assumptions C36_small_exponents.

(** ** C40 *)
Theorem C40_reciprocal : forall f, reduced f ->
  ((Fval f == 0)%Q /\ reciprocal f = Throw DivideByZero) \/
  (~ (Fval f == 0)%Q /\ gives (reciprocal f) (/ Fval f) (norm_safe (val (bot f)) (val (top f)))).
Proof.
  intros f Rf. pose proof (den_pos f Rf) as P. pose proof (reciprocal_makes f f (reduced_parts f Rf)) as M.
  unfold Fval. rewrite ratio_0 by lia. destruct (Z.eq_dec (val (top f)) 0) as [E|E].
  - left. split; auto. rewrite E in M. destruct M as [[_ H]|[(H & _)|(H & _)]]; auto; contradiction.
  - right. split; auto. apply makes_gives; auto. apply ratio_inv; lia.
Qed.
Theorem C40_involution : forall f r, reduced f -> reciprocal f = Ok r -> reciprocal r = Ok f.
Proof.
  intros f r Rf H. pose proof (den_pos f Rf) as P.
  destruct (C40_reciprocal f Rf) as [[_ E]|[N [[S (r' & E & Rr & V)]|[_ E]]]]; rewrite H in E; try discriminate.
  injection E as <-. pose proof (den_pos r Rr) as Pr.
  assert (Nf : val (top f) <> 0) by (intros E; apply N; unfold Fval; apply ratio_0; lia).
  unfold Fval in V. rewrite <- ratio_inv in V by lia. rewrite ratio_eq in V by lia.
  assert (Ab : Z.abs (val (top r)) = val (bot f) /\ val (bot r) = Z.abs (val (top f))).
  { destruct Rf as (_ & _ & _ & Gf). destruct Rr as (_ & _ & _ & Gr).
    assert (D1 : (val (bot r) | val (top f))).
    { apply Z.gauss with (val (top r)); [exists (val (bot f)); lia|rewrite Z.gcd_comm; assumption]. }
    assert (D2 : (val (top f) | val (bot r))).
    { apply Z.gauss with (val (bot f)); [exists (val (top r)); lia|assumption]. }
    assert (A : val (bot r) = Z.abs (val (top f))).
    { apply Z.divide_antisym_nonneg; try lia; [apply Z.divide_abs_r; assumption|apply Z.divide_abs_l; assumption]. }
    split; [|exact A]. rewrite A in V. nia. }
  destruct Ab as [A1 A2].
  destruct (C40_reciprocal r Rr) as [[E _]|[N' [[S' (r' & E & Rr' & V')]|[S' _]]]].
  - exfalso. unfold Fval in E. apply ratio_0 in E; lia.
  - rewrite E. f_equal. apply reduced_unique; auto. rewrite V'.
    unfold Fval. rewrite <- ratio_inv by lia. apply ratio_eq; lia.
  - exfalso. apply S'. apply norm_safe_sym in S. revert S. apply norm_safe_abs; lia.
Qed.
Example C40_ex : reciprocal (fr (-2) 3) = Ok (fr (-3) 2) /\ reciprocal (fr 0 1) = Throw DivideByZero.
Proof. vm_compute. auto. Qed.
Print Assumptions C40_reciprocal.
Print Assumptions C40_involution.
