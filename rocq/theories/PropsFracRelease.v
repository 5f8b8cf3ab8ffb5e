(** Property theorems about Frac compiled without assertions (CMAKE_BUILD_TYPE=Release):
    C121. *)
From Coq Require Import ZifyBool QArith Ascii String.
From Verif Require Import Base IntModel IntSpec IntBasics IOModel FracModel FracSpec FracProofs ExtProofs PropsInt PropsFrac FracHistory CatchModel
  ReleaseModel ReleaseSpec ReleaseProofs ReleaseProofs2 FracReleaseModel FracReleaseSpec FracReleaseProofs.
Local Open Scope list_scope.
Local Open Scope Z_scope.

Definition Fbin_nd (o : fop) : Frac -> Frac -> res Frac :=
  match o with FAdd => F_add_nd | FSub => F_sub_nd | FMul => F_mul_nd | FDiv => F_div_nd end.
Definition IFbin_nd (o : fop) : Int -> Frac -> res Frac :=
  match o with FAdd => IF_add_nd | FSub => IF_sub_nd | FMul => IF_mul_nd | FDiv => IF_div_nd end.
Definition FIbin_nd (o : fop) : Frac -> Int -> res Frac :=
  match o with FAdd => FI_add_nd | FSub => FI_sub_nd | FMul => FI_mul_nd | FDiv => FI_div_nd end.
(** The object left behind and how the call ended *)
Definition Fasg_nd (o : fop) : Frac -> option Frac -> Frac * res unit :=
  match o with FAdd => F_add_assign_nd | FSub => F_sub_assign_nd | FMul => F_mul_assign_nd | FDiv => F_div_assign_nd end.
Definition FIasg_nd (o : fop) : Frac -> Int -> Frac * res unit :=
  match o with FAdd => FI_add_assign_nd | FSub => FI_sub_assign_nd | FMul => FI_mul_assign_nd | FDiv => FI_div_assign_nd end.
(** The comparisons that multiply *)
Definition Fcmp_nd (c : fcmp) : Frac -> Frac -> res bool :=
  match c with CEq => F_eq | CNe => F_ne | CLt => F_lt_nd | CGt => F_gt_nd | CLe => F_le_nd | CGe => F_ge_nd end.
(** The numerator and denominator the four operations compute before reducing *)
Definition num (o : fop) (t b t' b' : Z) : Z :=
  match o with FAdd => t * b' + t' * b | FSub => t * b' - t' * b | FMul => t * t' | FDiv => t * b' end.
Definition den (o : fop) (t b t' b' : Z) : Z := match o with FDiv => b * t' | _ => b * b' end.

(** ** C121 *)
(** Whatever the operands, what is returned with assertions is returned without them. *)
Theorem C121_same : forall o c x y a b s d p r w,
  (Fbin o x y = Ok r -> Fbin_nd o x y = Ok r) /\ (IFbin o a x = Ok r -> IFbin_nd o a x = Ok r) /\ (FIbin o x a = Ok r -> FIbin_nd o x a = Ok r) /\
  (F_pow x a = Ok r -> F_pow_nd x a = Ok r) /\ (Frac_make a b = Ok r -> Frac_make_nd a b = Ok r) /\ (reciprocal x = Ok r -> reciprocal_nd x = Ok r) /\
  (Frac_of_string s = Ok r -> Frac_of_string_nd s = Ok r) /\ (from_double d p = Ok r -> from_double_nd d p = Ok r) /\ (Fcmp c x y = Ok w -> Fcmp_nd c x y = Ok w).
Proof.
  intros o c x y a b s d p r w. splits.
  - destruct o; [apply F_add_keeps|apply F_sub_keeps|apply F_mul_keeps|apply F_div_keeps].
  - destruct o; [apply IF_add_keeps|apply IF_sub_keeps|apply IF_mul_keeps|apply IF_div_keeps].
  - destruct o; [apply FI_add_keeps|apply FI_sub_keeps|apply FI_mul_keeps|apply FI_div_keeps].
  - apply F_pow_keeps.
  - apply make_keeps.
  - apply reciprocal_keeps.
  - apply string_keeps.
  - apply double_keeps.
  - destruct c; cbn [Fcmp Fcmp_nd]; auto; unfold F_gt, F_le, F_ge, F_gt_nd, F_le_nd, F_ge_nd; try apply F_lt_keeps; apply keeps_bind; [apply F_lt_keeps|intros ?; apply keeps_refl|apply F_lt_keeps|intros ?; apply keeps_refl].
Qed.
Theorem C121_same_in_place : forall o x other a f,
  (Fasg o x other = (f, Ok tt) -> Fasg_nd o x other = (f, Ok tt)) /\ (FIasg o x a = (f, Ok tt) -> FIasg_nd o x a = (f, Ok tt)) /\
  (F_pow_assign x a = (f, Ok tt) -> F_pow_assign_nd x a = (f, Ok tt)).
Proof.
  intros o x other a f. splits; [| |apply F_pow_fkeeps].
  - destruct o; [apply addsub_fkeeps, op_add_keeps|apply addsub_fkeeps, op_sub_keeps|apply F_mul_fkeeps|apply F_div_fkeeps].
  - destruct o; [apply FI_add_fkeeps|apply FI_sub_fkeeps|apply FI_mul_fkeeps|apply FI_div_fkeeps].
Qed.

(** A failed assertion becomes std::out_of_range, and nothing else changes. The operands
    may have a zero or a negative denominator and need not be reduced. *)
Theorem C121_throws : forall o c x y a b s d p, canonical (top x) -> canonical (bot x) -> canonical (top y) -> canonical (bot y) -> canonical a -> canonical b ->
  Fbin_nd o x y = released (Fbin o x y) /\ IFbin_nd o a x = released (IFbin o a x) /\ FIbin_nd o x a = released (FIbin o x a) /\
  F_pow_nd x a = released (F_pow x a) /\ Frac_make_nd a b = released (Frac_make a b) /\ reciprocal_nd x = released (reciprocal x) /\
  Frac_of_string_nd s = released (Frac_of_string s) /\ from_double_nd d p = released (from_double d p) /\ Fcmp_nd c x y = Fcmp c x y.
Proof.
  intros o c x y a b s d p C1 C2 C3 C4 Ca Cb. assert (Px : cparts x) by (split; auto). assert (Py : cparts y) by (split; auto). splits.
  - destruct o; [apply F_add_released|apply F_sub_released|apply F_mul_released|apply F_div_released]; auto.
  - destruct o; [eapply IF_add_released|eapply IF_sub_released|eapply IF_mul_released|eapply IF_div_released]; eauto.
  - destruct o; [eapply FI_add_released|eapply FI_sub_released|eapply FI_mul_released|eapply FI_div_released]; eauto.
  - apply F_pow_released; auto.
  - apply make_released; auto.
  - eapply reciprocal_released; eauto.
  - apply string_released.
  - apply double_released.
  - destruct c; cbn [Fcmp Fcmp_nd]; auto; unfold F_gt, F_le, F_ge, F_gt_nd, F_le_nd, F_ge_nd; rewrite F_lt_released; auto.
Qed.
(** In place, the object is the same too unless an assertion fails. *)
Theorem C121_throws_in_place : forall o x other a, canonical (top x) -> canonical (bot x) ->
  (forall y, other = Some y -> canonical (top y) /\ canonical (bot y)) -> canonical a ->
  let agree (p p' : Frac * res unit) := snd p' = released (snd p) /\ (snd p <> Abort -> p' = p) in
  agree (Fasg o x other) (Fasg_nd o x other) /\ agree (FIasg o x a) (FIasg_nd o x a) /\ agree (F_pow_assign x a) (F_pow_assign_nd x a).
Proof.
  intros o x other a C1 C2 Co Ca agree. assert (G : forall p p' L, same_end p p' L -> agree p p').
  { intros p p' L [(H1 & H2 & _)|(H1 & ->)]; split; [rewrite H1; exact H2|congruence| |reflexivity]. destruct (snd p); try reflexivity. congruence. }
  assert (Px : cparts x) by (split; auto). splits.
  - destruct o; eapply G; [apply F_add_ended|apply F_sub_ended|apply F_mul_ended|apply F_div_ended]; auto.
  - destruct o; eapply G; [apply FI_add_ended|apply FI_sub_ended|apply FI_mul_ended|apply FI_div_ended]; auto.
  - eapply G. apply F_pow_ended; auto.
Qed.

(** x op= y that throws leaves x in one of three states, left_frac: with the right value,
    not reduced, or with its numerator or its denominator cut off. *)
Lemma reduced_cparts f : reduced f -> cparts f.
Proof. intros (H1 & H2 & _). split; auto. Qed.
Lemma reduced_flag f : reduced f -> negative (bot f) = false.
Proof. intros (_ & C & P & _). rewrite (canonical_neg_eq _ C). lia. Qed.
Theorem C121_left : forall o x other, reduced x -> (forall y, other = Some y -> reduced y) -> snd (Fasg o x other) = Abort ->
  let y := rd x other in let t := val (top x) in let b := val (bot x) in let t' := val (top y) in let b' := val (bot y) in
  snd (Fasg_nd o x other) = Throw OutOfRange /\ left_frac (num o t b t' b') (den o t b t' b') (fst (Fasg_nd o x other)).
Proof.
  intros o x other Rx Ro E y t b t' b'. assert (Ry : reduced y) by (unfold y; destruct other; cbn; auto).
  pose proof (reduced_cparts x Rx) as Px. assert (Po : forall z, other = Some z -> cparts z) by (intros z Hz; apply reduced_cparts; auto).
  pose proof (reduced_flag x Rx) as Fx. pose proof (reduced_flag y Ry) as Fy. destruct Rx as (_ & _ & Bx & _), Ry as (_ & _ & By & _).
  assert (G : forall p p' tt_ bb n, ended p p' tt_ bb n -> snd p = Abort -> (bb <> 0 \/ n = false) -> snd p' = Throw OutOfRange /\ left_frac tt_ bb (fst p')).
  { intros p p' u v n [(H1 & H2 & H3)|(H1 & _)] Hp Hb; [auto|congruence]. }
  destruct o; cbn [Fasg Fasg_nd num den] in *.
  - eapply G; [apply F_add_ended; auto|exact E|left]. fold y b b'. nia.
  - eapply G; [apply F_sub_ended; auto|exact E|left]. fold y b b'. nia.
  - eapply G; [apply F_mul_ended; auto|exact E|left]. fold y b b'. nia.
  - eapply G; [apply F_div_ended; auto|exact E|]. fold y b t'. rewrite Fx. cbn [xorb]. destruct (Z.eq_dec t' 0) as [E0|E0]; [right; rewrite E0; reflexivity|left; unfold b; nia].
Qed.
Theorem C121_left_Int : forall o x a, reduced x -> canonical a -> snd (FIasg o x a) = Abort ->
  let t := val (top x) in let b := val (bot x) in
  snd (FIasg_nd o x a) = Throw OutOfRange /\ left_frac (num o t b (val a) 1) (den o t b (val a) 1) (fst (FIasg_nd o x a)).
Proof.
  intros o x a Rx Ca E t b. pose proof (reduced_cparts x Rx) as Px. pose proof (reduced_flag x Rx) as Fx. destruct Rx as (_ & _ & Bx & _).
  assert (G : forall p p' t1 b1 t2 b2 n, ended p p' t1 b1 n -> snd p = Abort -> (b1 <> 0 \/ n = false) -> t1 = t2 -> b1 = b2 -> snd p' = Throw OutOfRange /\ left_frac t2 b2 (fst p')).
  { intros p p' u v u2 v2 n [(H1 & H2 & H3)|(H1 & _)] Hp Hb <- <-; [auto|congruence]. }
  destruct o; cbn [FIasg FIasg_nd num den] in *.
  - eapply G; [apply FI_add_ended; auto|exact E|left|..]; fold t b; unfold b in *; lia.
  - eapply G; [apply FI_sub_ended; auto|exact E|left|..]; fold t b; unfold b in *; lia.
  - eapply G; [apply FI_mul_ended; auto|exact E|left|..]; fold t b; unfold b in *; lia.
  - eapply G; [apply FI_div_ended; auto|exact E| |fold t; lia|reflexivity]. fold b. rewrite Fx. cbn [xorb]. destruct (Z.eq_dec (val a) 0) as [E0|E0]; [right; rewrite E0; reflexivity|left; unfold b; nia].
Qed.
(** x ^= a; [e] is the exponent the library uses in place of |a| (C28) *)
Theorem C121_left_pow : forall x a, reduced x -> canonical a -> snd (F_pow_assign x a) = Abort ->
  snd (F_pow_assign_nd x a) = Throw OutOfRange /\
  ((exists e, power_taken 0 (Z.abs (val a)) e /\ 0 <= e /\ left_frac (val (top x) ^ e) (val (bot x) ^ e) (fst (F_pow_assign_nd x a))) \/
   (power_stops 0 (Z.abs (val a)) /\ fst (F_pow_assign_nd x a) = x)).
Proof.
  intros x a Rx Ca E. destruct (F_pow_ended x a (reduced_cparts x Rx) Ca) as [(_ & H2 & H3)|(H & _)]; [|congruence]. split; [exact H2|].
  destruct H3 as [(e & T & P & H)|H]; [left|right; exact H]. exists e. splits; auto. apply H. right. destruct Rx as (_ & _ & B0 & _). lia.
Qed.
(** So a fraction with a denominator of zero can be left behind. *)
Theorem C121_left_refuted : exists x a l, reduced x /\ canonical a /\ FIasg_nd FDiv x a = (l, Throw OutOfRange) /\
  val (bot l) = 0 /\ l <> x.
Proof.
  exists (mkFrac (mkInt [0; 0; 1; 1; 1] false) (i 1)), (mkInt [0; 0; 1] false), (mkFrac (mkInt [1; 1; 1] false) (i 0)).
  splits; [|ex|vm_compute; reflexivity|reflexivity|discriminate].
  unfold reduced. cbn [top bot]. splits; [ex|ex|reflexivity|]. rewrite Z.gcd_1_r. reflexivity.
Qed.

(** Euclid's algorithm stops on 3 and 10^18 + 5, and on 2 * 10^18 and 10^36: the right
    fraction is left, in lowest terms or not. *)
Example C121_ex : FIasg FMul (fr 1 (10 ^ 18 + 5)) (i 3) = (fr 3 (10 ^ 18 + 5), Abort) /\
  FIasg_nd FMul (fr 1 (10 ^ 18 + 5)) (i 3) = (fr 3 (10 ^ 18 + 5), Throw OutOfRange) /\
  Fasg_nd FAdd (fr (-1) (10 ^ 18)) None = (mkFrac (i (-2 * 10 ^ 18)) (mkInt [0; 0; 0; 0; 1] false), Throw OutOfRange) /\
  Fasg_nd FAdd (fr (-1) 6) (Some (fr 5 6)) = (fr 2 3, Ok tt) /\
  FIasg_nd FDiv (fr 1 2) (i 0) = (mkFrac (i 1) (i 0), Ok tt).
Proof. vm_compute. splits; reflexivity. Qed.
(** The numerator 10^18 + 5 divides the denominator, and the other way round: one of them
    is left without its upper digits. *)
Example C121_ex_cut : FIasg FMul (fr (-1) ((10 ^ 18 + 5) * (10 ^ 9 + 1))) (i (10 ^ 18 + 5)) = (fr (-(10 ^ 18 + 5)) ((10 ^ 18 + 5) * (10 ^ 9 + 1)), Abort) /\
  FIasg_nd FMul (fr (-1) ((10 ^ 18 + 5) * (10 ^ 9 + 1))) (i (10 ^ 18 + 5)) = (fr (-5) ((10 ^ 18 + 5) * (10 ^ 9 + 1)), Throw OutOfRange) /\
  FIasg_nd FDiv (fr ((10 ^ 18 + 5) * (10 ^ 9 + 1)) 1) (i (-(10 ^ 18 + 5))) = (fr (-(10 ^ 9 + 1)) 5, Throw OutOfRange).
Proof. vm_compute. splits; reflexivity. Qed.
Example C121_ex_left : left_frac (-(10 ^ 18 + 5)) ((10 ^ 18 + 5) * (10 ^ 9 + 1)) (fr (-5) ((10 ^ 18 + 5) * (10 ^ 9 + 1))).
Proof.
  set (x := fr (-1) ((10 ^ 18 + 5) * (10 ^ 9 + 1))). set (a := i (10 ^ 18 + 5)).
  assert (E : snd (FIasg FMul x a) = Abort) by (vm_compute; reflexivity).
  apply (C121_left_Int FMul x a) in E; [|unfold reduced; splits; [ex|ex|vm_compute; reflexivity|vm_compute; reflexivity]|ex].
  destruct E as [_ E].
  replace (num FMul (val (top x)) (val (bot x)) (val a) 1) with (-(10 ^ 18 + 5)) in E by (vm_compute; reflexivity).
  replace (den FMul (val (top x)) (val (bot x)) (val a) 1) with ((10 ^ 18 + 5) * (10 ^ 9 + 1)) in E by (vm_compute; reflexivity).
  replace (fst (FIasg_nd FMul x a)) with (fr (-5) ((10 ^ 18 + 5) * (10 ^ 9 + 1))) in E by (vm_compute; reflexivity). exact E.
Qed.
(** Powers: 2/3 to the power 2^30 stops in the exponent and is left alone. *)
Example C121_ex_pow : F_pow_assign_nd (fr 2 3) (mkInt [73741824; 1] false) = (fr 2 3, Throw OutOfRange) /\ F_pow_nd (fr 2 3) (i (-3)) = Ok (fr 27 8) /\
  F_pow_assign_nd (fr 7 (10 ^ 9)) (i (-2)) = (fr 49 (10 ^ 18), Throw OutOfRange).
Proof. vm_compute. splits; reflexivity. Qed.
Example C121_ex_values : Frac_make_nd (i 3) (i (10 ^ 18 + 5)) = Throw OutOfRange /\ Frac_make (i 3) (i (10 ^ 18 + 5)) = Abort /\
  Frac_of_string_nd (list_ascii_of_string "84/-126") = Ok (fr (-2) 3) /\ F_div_nd (fr 1 6) (fr (-1) 10) = Ok (fr (-5) 3) /\
  F_lt_nd (fr 1 3) (fr (10 ^ 18) (2 * 10 ^ 18 + 1)) = Ok true /\ reciprocal_nd (fr 0 1) = Throw DivideByZero.
Proof. vm_compute. splits; reflexivity. Qed.

Print Assumptions C121_same.
Print Assumptions C121_same_in_place.
Print Assumptions C121_throws.
Print Assumptions C121_throws_in_place.
Print Assumptions C121_left.
Print Assumptions C121_left_Int.
Print Assumptions C121_left_pow.
Print Assumptions C121_left_refuted.
