(** Property theorems about Poly.hpp compiled without assertions (CMAKE_BUILD_TYPE=Release):
    C129. [term_ok], [poly_ok]: coefficients in lowest terms, every name once and in order,
    canonical exponents. *)
From Coq Require Import Ascii String QArith List.
From Verif Require Import Base IntModel IntSpec IntBasics FracModel FracSpec FracProofs IOModel ElemModel PolyModel PolySpec PolyProofs PolyTerms PolyPoly PropsFrac PropsPoly
  ReleaseModel ReleaseSpec ReleaseProofs FracReleaseModel FracReleaseSpec PolyReleaseModel PolyReleaseSpec PolyReleaseProofs.
Local Open Scope Z_scope.
Local Open Scope list_scope.

(** ** C129 *)
(** Whatever the operands, what is returned with assertions is returned without them. *)
Theorem C129_same : forall c f g (l : list Factor) t u r p,
  (Term_of_factor f = Ok r -> Term_of_factor_nd f = Ok r) /\ (Term_of c f = Ok r -> Term_of_nd c f = Ok r) /\ (Term_of_vector c l = Ok r -> Term_of_vector_nd c l = Ok r) /\
  (factor_mul f g = Ok r -> factor_mul_nd f g = Ok r) /\ (term_mul_factor t f = Ok r -> term_mul_factor_nd t f = Ok r) /\ (term_mul t u = Ok r -> term_mul_nd t u = Ok r) /\
  (factor_add f g = Ok p -> factor_add_nd f g = Ok p) /\ (factor_sub f g = Ok p -> factor_sub_nd f g = Ok p) /\
  (term_add t u = Ok p -> term_add_nd t u = Ok p) /\ (term_sub t u = Ok p -> term_sub_nd t u = Ok p).
Proof.
  intros c f g l t u r p. splits; [apply Term_of_factor_keeps|apply Term_of_keeps|apply Term_of_vector_keeps|apply factor_mul_keeps|apply term_mul_factor_keeps|apply term_mul_keeps
    |apply factor_add_keeps|apply factor_sub_keeps|apply term_add_keeps|apply term_sub_keeps].
Qed.
Theorem C129_same_in_place : forall t f s o p r q,
  (appendFactor t f s = (r, Ok tt) -> appendFactor_nd t f s = (r, Ok tt)) /\ (negate_term t = (r, Ok tt) -> negate_term_nd t = (r, Ok tt)) /\
  (term_mul_assign t o = (r, Ok tt) -> term_mul_assign_nd t o = (r, Ok tt)) /\ (appendTerm p t = (q, Ok tt) -> appendTerm_nd p t = (q, Ok tt)) /\
  (poly_add_assign p f = (q, Ok tt) -> poly_add_assign_nd p f = (q, Ok tt)) /\ (poly_sub_assign p f = (q, Ok tt) -> poly_sub_assign_nd p f = (q, Ok tt)).
Proof.
  intros t f s o p r q. splits; [apply appendFactor_keeps|apply negate_term_keeps|apply term_mul_assign_keeps|apply appendTerm_keeps|apply poly_add_assign_keeps|apply poly_sub_assign_keeps].
Qed.

(** Exponents never meet an assertion, so products of factors and the constructors do not
    change at all. *)
Theorem C129_exponents : forall c f g l t s, factor_ok f -> factor_ok g -> Forall factor_ok l -> map_ok (factors t) ->
  appendFactor_nd t f s = appendFactor t f s /\ Term_of_factor_nd f = Term_of_factor f /\ Term_of_nd c f = Term_of c f /\ Term_of_vector_nd c l = Term_of_vector c l /\
  factor_mul_nd f g = factor_mul f g /\ term_mul_factor_nd t f = term_mul_factor t f /\ term_mul_assign_factor_nd t f = term_mul_assign_factor t f /\
  Poly_of_factor_nd f = Poly_of_factor f /\ Poly_of_factors_nd l = Poly_of_factors l /\ forall ts, Poly_of_terms_nd ts = Poly_of_terms ts.
Proof.
  intros c f g l t s Hf Hg Hl Ht. splits.
  - apply appendFactor_eq; auto.
  - apply Term_of_factor_eq; auto.
  - apply Term_of_eq; auto.
  - apply Term_of_vector_eq; auto.
  - apply factor_mul_eq; auto.
  - unfold term_mul_factor_nd. rewrite appendFactor_eq by auto. reflexivity.
  - apply appendFactor_eq; auto.
  - apply Poly_of_factor_eq; auto.
  - apply Poly_of_factors_eq; auto.
  - apply Poly_of_terms_eq.
Qed.

(** Coefficients do: a failed assertion becomes std::out_of_range and nothing else changes
    (undefined behaviour included, C55). *)
Theorem C129_throws : forall f g t u, factor_ok f -> factor_ok g -> term_ok t -> term_ok u ->
  term_mul_nd t u = released (term_mul t u) /\ factor_add_nd f g = released (factor_add f g) /\ factor_sub_nd f g = released (factor_sub f g) /\
  term_add_nd t u = released (term_add t u) /\ term_sub_nd t u = released (term_sub t u).
Proof.
  intros f g t u Hf Hg Ht Hu.
  splits; [apply term_mul_released|apply factor_add_released|apply factor_sub_released|apply term_add_released|apply term_sub_released]; assumption.
Qed.
Theorem C129_throws_in_place : forall f t o p, factor_ok f -> term_ok t -> (forall u, o = Some u -> term_ok u) -> poly_ok p ->
  agree (negate_term t) (negate_term_nd t) /\ agree (term_mul_assign t o) (term_mul_assign_nd t o) /\ agree (appendTerm p t) (appendTerm_nd p t) /\
  agree (poly_add_assign p f) (poly_add_assign_nd p f) /\ agree (poly_sub_assign p f) (poly_sub_assign_nd p f).
Proof.
  intros f t o p Hf Ht Ho Hp. splits; [apply negate_agree|apply mul_agree|apply append_agree|apply poly_add_agree|apply poly_sub_agree]; assumption.
Qed.

(** What is left when they throw. negate: the factors, and a cut or unreduced coefficient; *)
Theorem C129_negate : forall t, term_ok t -> let n := val (top (coeff t)) in let d := val (bot (coeff t)) in
  (norm_safe n d /\ exists c, negate_term_nd t = (mkTerm c (factors t), Ok tt) /\ reduced c /\ (Fval c == - Fval (coeff t))%Q) \/
  (~ norm_safe n d /\ exists c, negate_term_nd t = (mkTerm c (factors t), Throw OutOfRange) /\ left_frac (- n) d c).
Proof.
  intros t Ht n d. destruct (norm_safe_dec n d) as [D|D]; [left|right]; (split; [exact D|]).
  - destruct (negate_term_ok t Ht) as [_ H]. destruct (H D) as (c & E & R & V). exists c. splits; auto. apply negate_term_keeps, E.
  - exact (negate_left t Ht D).
Qed.
(** ... t *= u: all exponents are those of the product, the coefficient is not; *)
Theorem C129_mul : forall t o, term_ok t -> (forall u, o = Some u -> term_ok u) -> let u := rd t o in
  (mul_safe t u /\ exists r, term_mul_assign_nd t o = (r, Ok tt) /\ product_of t u r) \/
  (~ mul_safe t u /\ exists r, term_mul_assign_nd t o = (r, Throw OutOfRange) /\ map_ok (factors r) /\
     (forall k, exponent r k = exponent t k + exponent u k) /\ (forall k, occurs r k <-> occurs t k \/ occurs u k) /\
     left_frac (val (top (coeff t)) * val (top (coeff u))) (val (bot (coeff t)) * val (bot (coeff u))) (coeff r)).
Proof.
  intros t o Ht Ho u. assert (Hu : term_ok u) by (unfold u; destruct o; cbn [rd]; auto).
  destruct (mul_safe_dec t u) as [D|D]; [left|right]; (split; [exact D|]).
  - assert (E : exists r, term_mul_assign t o = (r, Ok tt) /\ product_of t u r).
    { unfold u in *. destruct o as [w|]; cbn [rd] in *; [destruct (proj2 (term_mul_ok t w Ht Hu) D) as (r & _ & E & P)|destruct (proj2 (term_square_ok t Ht) D) as (r & E & P)]; eauto. }
    destruct E as (r & E & P). exists r. split; [apply term_mul_assign_keeps, E|exact P].
  - destruct (mul_left t o Ht Ho D) as (c & w & A & E & L). fold u in A, E, L. exists (mkTerm c (factors w)). destruct A as (A1 & A2 & A3 & A4 & A5). cbn [coeff factors]. splits; auto.
    intros k. change (occurs (mkTerm c (factors w)) k) with (occurs w k). rewrite A4. split; (intros [H|H]; [auto|right]).
    + destruct H as (f & I & <-). apply in_map_iff in I as ([k' f'] & E' & I). cbn in E'. subst f'. destruct Hu as [_ [_ Hu]]. rewrite Forall_forall in Hu.
      destruct (Hu _ I) as [E' _]. cbn [fst snd] in E'. rewrite E'. apply (in_map fst) in I. exact I.
    + unfold occurs in H. apply in_map_iff in H as ([k' f'] & E' & I). cbn in E'. subst k'. exists f'. split; [apply (in_map snd) in I; exact I|].
      destruct Hu as [_ [_ Hu]]. rewrite Forall_forall in Hu. apply (Hu _ I).
Qed.
(** ... p += x (appendTerm): the terms before and after the one with the same factors, and a
    cut or unreduced coefficient in that one. *)
Theorem C129_append : forall p x, poly_ok p -> term_ok x ->
  (Forall (fun t => term_before t x) p /\ appendTerm_nd p x = (p, UB)) \/
  (exists q, appendTerm_nd p x = (q, Ok tt) /\ poly_ok q /\ forall rho, (pval rho q == pval rho p + tval rho x)%Q) \/
  (exists a t b c, p = a ++ t :: b /\ Forall (fun t => term_before t x) a /\ ~ term_before t x /\ factors t = factors x /\ ~ add_safe t x /\
     appendTerm_nd p x = (a ++ mkTerm c (factors t) :: b, Throw OutOfRange) /\
     left_frac (val (top (coeff t)) * val (bot (coeff x)) + val (top (coeff x)) * val (bot (coeff t))) (val (bot (coeff t)) * val (bot (coeff x))) c).
Proof.
  intros p x Hp Hx. destruct (append_left p x Hp Hx) as [H|[(q & E & E')|H]]; [left; exact H|right; left|right; right; exact H].
  exists q. split; [exact E|]. apply (appended_ok p x q Hp Hx). rewrite <- E'. apply appendTerm_cases; assumption.
Qed.

(** Examples: 7 / (10^18 + 5), in lowest terms, cannot be reduced again *)
Local Notation z18 := (mkInt [5; 0; 1] false).
Local Notation bad := (mkFrac (i 7) z18).
Local Notation e36 := (mkFrac (i (2 * 10 ^ 18)) (mkInt [0; 0; 0; 0; 1] false)).
Example C129_ex : factor_ok (fx 3) /\ term_ok (xs bad 4) /\
  negate_term (xs bad 4) = (xs (mkFrac (i (-7)) z18) 4, Abort) /\ negate_term_nd (xs bad 4) = (xs (mkFrac (i (-7)) z18) 4, Throw OutOfRange) /\
  negate_term_nd (xs (fr 2 3) 4) = (xs (fr (-2) 3) 4, Ok tt) /\
  term_sub (xs (fr 1 1) 5) (xs bad 4) = Abort /\ term_sub_nd (xs (fr 1 1) 5) (xs bad 4) = Throw OutOfRange /\
  term_add_nd (xs (fr 1 1) 5) (xs bad 4) = Ok [xs bad 4; xs (fr 1 1) 5].
Proof. splits; [unfold factor_ok; exc|split; [unfold reduced; splits; [exc|exc|vm_compute; reflexivity..]|unfold xs; cbn [factors]; repeat exm; split; constructor]|vm_compute; reflexivity..]. Qed.
(** The exponents are those of the product, the coefficient is 7 / (10^18 + 5), not reduced. *)
Example C129_ex_mul : term_mul_assign_nd (xy (fr 7 1) 1 2) (Some (ys (mkFrac (i 1) z18) 5)) = (xy bad 1 7, Throw OutOfRange) /\
  term_mul (xy (fr 7 1) 1 2) (ys (mkFrac (i 1) z18) 5) = Abort /\ term_mul_nd (xy (fr 7 1) 1 2) (ys (mkFrac (i 1) z18) 5) = Throw OutOfRange /\
  term_mul_nd (ys (fr (-3) 4) (-2)) (xy (fr 2 3) 1 5) = Ok (xy (fr (-1) 2) 1 3) /\ term_mul_assign_nd (xy (fr 2 3) 1 5) None = (xy (fr 4 9) 2 10, Ok tt) /\
  factor_mul_nd (fy 2) (fx 3) = Ok (xy (fr 1 1) 3 2).
Proof. vm_compute. splits; reflexivity. Qed.
(** 10^-18 + 10^-18 is left as 2 * 10^18 / 10^36, between the other terms. *)
Example C129_ex_append :
  appendTerm_nd [xs (fr 7 1) 1; xs (fr 1 (10 ^ 18)) 2; ys (fr 1 3) 1] (xs (fr 1 (10 ^ 18)) 2) = ([xs (fr 7 1) 1; xs e36 2; ys (fr 1 3) 1], Throw OutOfRange) /\
  snd (appendTerm [xs (fr 7 1) 1; xs (fr 1 (10 ^ 18)) 2; ys (fr 1 3) 1] (xs (fr 1 (10 ^ 18)) 2)) = Abort /\
  appendTerm_nd [xs (fr 7 1) 1; xs (fr 1 2) 2] (xs (fr 1 3) 2) = ([xs (fr 7 1) 1; xs (fr 5 6) 2], Ok tt) /\
  poly_add_assign_nd [xs (fr 7 1) 1; xs (fr 1 2) 2] (fx 2) = ([xs (fr 7 1) 1; xs (fr 3 2) 2], Ok tt) /\
  poly_sub_assign_nd [xs (fr 7 1) 1; xs (fr 1 2) 2] (fx 1) = ([xs (fr 6 1) 1; xs (fr 1 2) 2], Ok tt) /\
  factor_add_nd (fx 1) (fy 1) = UB /\ factor_sub_nd (fx 1) (fx 1) = Ok [xs (fr 0 1) 1] /\ Poly_of_terms_nd [xs (fr 7 1) 1] = UB.
Proof. vm_compute. splits; reflexivity. Qed.

Print Assumptions C129_same.
Print Assumptions C129_same_in_place.
Print Assumptions C129_exponents.
Print Assumptions C129_throws.
Print Assumptions C129_throws_in_place.
Print Assumptions C129_negate.
Print Assumptions C129_mul.
Print Assumptions C129_append.
