(** C101: laws of arithmetic and order between results of Frac's operators, and the
    inputs on which they fail because one side aborts. [agree] and [same] (FracLaws.v):
    both sides return one and the same reduced object, the former unless one aborts;
    [norm_safe] and [div_safe] (FracSpec, IntSpec): no assertion fails when normalising,
    or dividing. *)
From Coq Require Import QArith Qpower ZifyBool.
From Verif Require Import Base IntModel IntSpec IntBasics IntPowExact FracModel FracSpec FracProofs PropsFrac FracHistory FracLaws.
Local Open Scope Z_scope.

(** Always, also when they abort. *)
Theorem C101_commute : forall f g, reduced f -> reduced g -> F_add f g = F_add g f /\ F_mul f g = F_mul g f.
Proof. exact commute. Qed.
(** The sides never disagree: they return the same object unless one of them aborts. *)
Theorem C101_add_partial : forall f g h, reduced f -> reduced g -> reduced h ->
  agree (a <- F_add f g ;; F_add a h) (b <- F_add g h ;; F_add f b) /\
  agree (d <- F_sub f g ;; F_add d g) (Ok f) /\
  agree (d <- F_sub f g ;; F_sub d h) (s <- F_add g h ;; F_sub f s).
Proof. intros f g h Rf Rg Rh. split; [apply add_assoc; auto|]. split; [apply sub_add; auto|apply sub_sub; auto]. Qed.
Theorem C101_mul_partial : forall f g h, reduced f -> reduced g -> reduced h ->
  agree (a <- F_mul f g ;; F_mul a h) (b <- F_mul g h ;; F_mul f b) /\
  agree (s <- F_add g h ;; F_mul f s) (a <- F_mul f g ;; b <- F_mul f h ;; F_add a b).
Proof. intros f g h Rf Rg Rh. split; [apply mul_assoc; auto|apply distr; auto]. Qed.
Theorem C101_div_partial : forall f g h, reduced f -> reduced g -> reduced h -> ~ (Fval g == 0)%Q ->
  agree (d <- F_div f g ;; F_mul d g) (Ok f) /\
  agree (F_div f g) (v <- reciprocal g ;; F_mul f v) /\
  (~ (Fval h == 0)%Q -> agree (d <- F_div f g ;; F_div d h) (m <- F_mul g h ;; F_div f m)).
Proof. intros f g h Rf Rg Rh N. split; [apply div_mul; auto|]. split; [apply div_recip; auto|intros N'; apply div_div; auto]. Qed.
(** Exponents (any that the power of an Int handles exactly, C36 and C88). *)
Theorem C101_pow_partial : forall f g m n k, reduced f -> reduced g -> canonical m -> canonical n -> canonical k ->
  exact_exponent (Z.abs (val m)) -> exact_exponent (Z.abs (val n)) -> exact_exponent (Z.abs (val k)) -> ~ (Fval f == 0)%Q -> ~ (Fval g == 0)%Q ->
  (val k = val m + val n -> agree (a <- F_pow f m ;; b <- F_pow f n ;; F_mul a b) (F_pow f k)) /\
  (val k = val m * val n -> agree (a <- F_pow f m ;; F_pow a n) (F_pow f k)) /\
  agree (a <- F_pow f m ;; b <- F_pow g m ;; F_mul a b) (c <- F_mul f g ;; F_pow c m).
Proof. exact pow_laws. Qed.
(** With 0 and 1, and an operand with itself: exactly when it works. *)
Theorem C101_zero_partial : forall f, reduced f ->
  (norm_safe (val (top f)) (val (bot f)) /\ F_add f f0 = Ok f /\ F_sub f f0 = Ok f /\ F_mul f f1 = Ok f /\ F_div f f1 = Ok f) \/
  (~ norm_safe (val (top f)) (val (bot f)) /\ F_add f f0 = Abort /\ F_sub f f0 = Abort /\ F_mul f f1 = Abort /\ F_div f f1 = Abort).
Proof. exact units_iff. Qed.
Theorem C101_self_partial : forall f, reduced f -> let t := Z.abs (val (top f)) in let b := val (bot f) in
  (div_safe (b * b) (b * b) /\ F_sub f f = Ok f0 \/ ~ div_safe (b * b) (b * b) /\ F_sub f f = Abort) /\
  (div_safe b b /\ F_mul f f0 = Ok f0 \/ ~ div_safe b b /\ F_mul f f0 = Abort) /\
  (t <> 0 -> div_safe (t * b) (t * b) /\ F_div f f = Ok f1 \/ ~ div_safe (t * b) (t * b) /\ F_div f f = Abort).
Proof. exact self_iff. Qed.
(** On fractions whose numerator and denominator are not too large nothing aborts. *)
Theorem C101_small : forall f g h N, within f N N -> within g N N -> within h N N ->
  (N <= 690000 -> same (a <- F_add f g ;; F_add a h) (b <- F_add g h ;; F_add f b) /\ same (a <- F_mul f g ;; F_mul a h) (b <- F_mul g h ;; F_mul f b)) /\
  (N <= 26000 -> same (s <- F_add g h ;; F_mul f s) (a <- F_mul f g ;; b <- F_mul f h ;; F_add a b)).
Proof. exact small_laws. Qed.
(** The order is total and respects the operations, whenever they return. *)
Theorem C101_order : forall f g h a b, reduced f -> reduced g -> reduced h ->
  (F_lt f f = Ok false) /\
  (F_lt f g = Ok true -> F_lt g h = Ok true -> F_lt f h = Ok true) /\
  (F_lt f g = Ok true \/ F_eq f g = Ok true \/ F_lt g f = Ok true) /\
  (F_add f h = Ok a -> F_add g h = Ok b -> F_lt a b = F_lt f g) /\
  (F_lt f0 h = Ok true -> F_mul f h = Ok a -> F_mul g h = Ok b -> F_lt a b = F_lt f g) /\
  (F_lt h f0 = Ok true -> F_mul f h = Ok a -> F_mul g h = Ok b -> F_lt a b = F_lt g f).
Proof. exact order_laws. Qed.

(** The laws without the exception are false: n - n + 1/3 is 1/3 but n + 1/3 aborts,
    for n = 333333333333333379; 1/10^9 * 10^9 * 10^9/3 likewise; 1/10^9 - 1/10^9
    aborts, and (10^18+138)/3 + 0 (an object that can be built, C38). *)
Definition n3 : Int := mkInt [333333379; 333333333] false.
Definition m3 : Int := mkInt [333333379; 333333333] true.
Definition one := mkInt [1] false.
Definition e9 : Int := mkInt [0; 1] false.
Theorem C101_assoc_refuted : exists f g h, reduced f /\ reduced g /\ reduced h /\
  (a <- F_add f g ;; F_add a h) = Ok h /\ (b <- F_add g h ;; F_add f b) = Abort.
Proof.
  exists (mkFrac m3 one), (mkFrac n3 one), (mkFrac one (mkInt [3] false)).
  split; [exr|]. split; [exr|]. split; [exr|]. vm_compute. auto.
Qed.
Theorem C101_mul_assoc_refuted : exists f g h, reduced f /\ reduced g /\ reduced h /\
  (a <- F_mul f g ;; F_mul a h) = Ok h /\ (b <- F_mul g h ;; F_mul f b) = Abort.
Proof.
  exists (mkFrac one e9), (mkFrac e9 one), (mkFrac e9 (mkInt [3] false)).
  split; [exr|]. split; [exr|]. split; [exr|]. vm_compute. auto.
Qed.
Theorem C101_identities_refuted : exists f g, reduced f /\ reduced g /\
  F_sub f f = Abort /\ F_div f f = Ok f1 /\ F_add g f0 = Abort /\ F_mul g f1 = Abort.
Proof.
  exists (mkFrac one e9), (mkFrac (mkInt [138; 0; 1] false) (mkInt [3] false)).
  split; [exr|]. split; [exr|]. vm_compute. auto.
Qed.
Example C101_ex : (a <- F_add (fr 1 2) (fr (-1) 3) ;; F_add a (fr 5 6)) = Ok (fr 1 1) /\
  (b <- F_add (fr (-1) 3) (fr 5 6) ;; F_add (fr 1 2) b) = Ok (fr 1 1) /\
  (s <- F_add (fr 3 4) (fr (-1) 6) ;; F_mul (fr 2 7) s) = Ok (fr 1 6) /\
  (a <- F_pow (fr 2 3) (i 2) ;; b <- F_pow (fr 2 3) (i (-5)) ;; F_mul a b) = Ok (fr 27 8) /\ F_pow (fr 2 3) (i (-3)) = Ok (fr 27 8) /\
  (a <- F_pow (fr 2 3) (i 2) ;; F_pow a (i (-1))) = Ok (fr 9 4) /\ F_sub (fr (-2) 3) (fr (-2) 3) = Ok f0 /\ F_div (fr (-2) 3) (fr (-2) 3) = Ok f1 /\
  F_lt (fr (-1) 2) (fr 1 3) = Ok true /\ F_mul (fr (-1) 2) (fr (-1) 5) = Ok (fr 1 10) /\ F_mul (fr 1 3) (fr (-1) 5) = Ok (fr (-1) 15) /\
  F_lt (fr (-1) 15) (fr 1 10) = Ok true.
Proof. vm_compute. auto 20. Qed.
Print Assumptions C101_commute.
Print Assumptions C101_add_partial.
Print Assumptions C101_mul_partial.
Print Assumptions C101_div_partial.
Print Assumptions C101_pow_partial.
Print Assumptions C101_zero_partial.
Print Assumptions C101_self_partial.
Print Assumptions C101_small.
Print Assumptions C101_order.
Print Assumptions C101_assoc_refuted.
Print Assumptions C101_mul_assoc_refuted.
Print Assumptions C101_identities_refuted.
