(** Property theorems about Poly.hpp: C54-C57, C62-C68. *)
From Coq Require Import Ascii String QArith Sorted List Permutation.
From Verif Require Import Base IntModel IntSpec IntBasics FracModel FracSpec FracProofs FracIO IOModel IOSpec IOProofs
  ElemModel ElemSpec ElemProofs PolyModel PolySpec PolyProofs PolyTerms PolyPoly PropsFrac.
Local Open Scope Z_scope.
Local Open Scope list_scope.

(** Objects for the examples: x^a, and c x^a y^b. *)
Definition nm (s : string) : chars := list_ascii_of_string s.
Definition fx (a : Z) : Factor := mkFactor (nm "x") (i a).
Definition fy (a : Z) : Factor := mkFactor (nm "y") (i a).
Definition xy (c : Frac) (a b : Z) : Term := mkTerm c [(nm "x", fx a); (nm "y", fy b)].
Definition xs (c : Frac) (a : Z) : Term := mkTerm c [(nm "x", fx a)].
Definition ys (c : Frac) (a : Z) : Term := mkTerm c [(nm "y", fy a)].
Lemma xy_before : str_before (nm "x") (nm "y").
Proof. apply sb_head. reflexivity. Qed.
Ltac exm := apply map_ok_cons; cbn [map fst fid]; splits; [reflexivity|unfold factor_ok; exc|repeat constructor|].
Ltac ext := split; [exr|unfold xy, xs, ys; cbn [factors]; repeat exm; split; constructor].

(** ** C54 *)
Theorem C54_factor_times_factor : forall f g, factor_ok f -> factor_ok g -> exists t, factor_mul f g = Ok t /\ term_ok t /\
  (Fval (coeff t) == 1)%Q /\ (forall k, exponent t k = degree f k + degree g k) /\ (forall k, occurs t k <-> fid f = k \/ fid g = k) /\
  (forall rho, meaningful rho [f; g] -> (tval rho t == fval rho f * fval rho g)%Q).
Proof.
  intros f g Hf Hg. destruct (factor_mul_ok f g Hf Hg) as (t & u & E & (Hu & Cu & Fu) & (Ht & Ct & Xt & Ot & Vt)).
  exists t. splits; auto.
  - rewrite Ct. auto.
  - intros k. rewrite Xt. unfold exponent. rewrite Fu. cbn [map snd total fold_right]. lia.
  - intros k. rewrite Ot. unfold occurs. rewrite Fu. cbn [map fst In]. tauto.
  - intros rho M. inversion M as [|? ? M1 M2]; subst. rewrite Vt; auto.
    + unfold tval. rewrite Fu, Cu. cbn [map snd fsval fold_right]. ring.
    + rewrite Fu. cbn [map snd]. constructor; auto.
Qed.
Theorem C54_term_times_factor : forall t f, term_ok t -> factor_ok f -> exists u,
  term_mul_factor t f = Ok u /\ factor_mul_term f t = Ok u /\ term_mul_assign_factor t f = (u, Ok tt) /\ times_factor t f u.
Proof. intros t f Ht Hf. destruct (term_mul_factor_ok t f Ht Hf) as (u & E & E2 & H). exists u. splits; auto. Qed.
Theorem C54_term_times_term : forall x y, term_ok x -> term_ok y ->
  (mul_safe x y /\ exists t, term_mul x y = Ok t /\ term_mul_assign x (Some y) = (t, Ok tt) /\ product_of x y t) \/
  (~ mul_safe x y /\ term_mul x y = Abort /\ snd (term_mul_assign x (Some y)) = Abort).
Proof.
  intros x y Hx Hy. destruct (term_mul_ok x y Hx Hy) as [H1 H2].
  unfold mul_safe in *. destruct (norm_safe_dec (val (top (coeff x)) * val (top (coeff y))) (val (bot (coeff x)) * val (bot (coeff y)))); [left|right]; auto.
Qed.
Theorem C54_term_squared : forall x, term_ok x ->
  (mul_safe x x /\ exists t, term_mul_assign x None = (t, Ok tt) /\ product_of x x t) \/
  (~ mul_safe x x /\ snd (term_mul_assign x None) = Abort).
Proof.
  intros x Hx. destruct (term_square_ok x Hx) as [H1 H2].
  unfold mul_safe in *. destruct (norm_safe_dec (val (top (coeff x)) * val (top (coeff x))) (val (bot (coeff x)) * val (bot (coeff x)))); [left|right]; auto.
Qed.
Theorem C54_small_coefficients : forall x y, term_ok x -> term_ok y ->
  Z.abs (val (top (coeff x)) * val (top (coeff y))) < 10 ^ 18 -> val (bot (coeff x)) * val (bot (coeff y)) < 10 ^ 18 -> mul_safe x y.
Proof.
  intros x y [(_ & _ & P1 & _) _] [(_ & _ & P2 & _) _] H1 H2. apply norm_safe_small; auto; nia.
Qed.
Theorem C54_commutes : forall x y t u, term_ok x -> term_ok y -> term_mul x y = Ok t -> term_mul y x = Ok u -> t = u.
Proof.
  intros x y t u Hx Hy E1 E2. destruct (C54_term_times_term x y Hx Hy) as [(_ & t' & E & _ & P)|(_ & E & _)]; [|congruence].
  destruct (C54_term_times_term y x Hy Hx) as [(_ & u' & E' & _ & P')|(_ & E' & _)]; [|congruence].
  assert (t' = t) by congruence. assert (u' = u) by congruence. subst. apply (product_unique x y); auto.
Qed.
Theorem C54_construct : forall c l, reduced c -> Forall factor_ok l -> exists t, Term_of_vector c l = Ok t /\
  term_ok t /\ coeff t = c /\ (forall k, exponent t k = total l k) /\ (forall k, occurs t k <-> exists f, In f l /\ fid f = k) /\
  (forall rho, meaningful rho l -> (tval rho t == Fval c * fsval rho l)%Q).
Proof. exact Term_of_vector_ok. Qed.
Theorem C54_construct_single : forall c f, reduced c -> factor_ok f ->
  Term_of c f = Ok (mkTerm c [(fid f, f)]) /\ exists t, Term_of_factor f = Ok t /\ single 1 f t.
Proof. intros c f Hc Hf. split; [apply Term_of_ok; auto|apply Term_of_factor_ok; auto]. Qed.
Example C54_ex : term_ok (xy (fr 2 3) 1 5) /\ term_ok (ys (fr (-3) 4) (-2)) /\
  term_mul (ys (fr (-3) 4) (-2)) (xy (fr 2 3) 1 5) = Ok (xy (fr (-1) 2) 1 3) /\
  term_mul_assign (xy (fr 2 3) 1 5) None = (xy (fr 4 9) 2 10, Ok tt) /\
  factor_mul (fy 2) (fx 3) = Ok (xy (fr 1 1) 3 2) /\ factor_mul (fx 2) (fx (-2)) = Ok (xs (fr 1 1) 0) /\
  Term_of_vector (fr 1 2) [fy 1; fx 4; fy 2] = Ok (xy (fr 1 2) 4 3).
Proof. splits; [ext|ext|reflexivity|reflexivity|reflexivity|reflexivity|reflexivity]. Qed.
Example C54_ex_mul : term_mul_assign (xy (fr 2 3) 1 5) (Some (ys (fr (-3) 4) (-2))) = (xy (fr (-1) 2) 1 3, Ok tt) /\
  term_mul_assign_factor (xs (fr 2 3) 1) (fy 4) = (xy (fr 2 3) 1 4, Ok tt).
Proof. vm_compute. auto. Qed.
Print Assumptions C54_factor_times_factor.
Print Assumptions C54_term_times_factor.
Print Assumptions C54_term_times_term.
Print Assumptions C54_term_squared.
Print Assumptions C54_commutes.
Print Assumptions C54_construct.
Print Assumptions C54_construct_single.

(** ** C55 *)
(** x + y, and appending anything to the empty polynomial: end() is dereferenced. *)
Theorem C55_add_refuted : factor_ok (fx 1) /\ factor_ok (fy 1) /\ factor_add (fx 1) (fy 1) = UB /\
  factor_sub (fx 1) (fy 1) = UB /\ snd (appendTerm [] (xs (fr 1 1) 1)) = UB.
Proof. splits; try (unfold factor_ok; exc); reflexivity. Qed.
Theorem C55_append_partial : forall p x, poly_ok p -> term_ok x ->
  (Forall (fun t => term_before t x) p /\ appendTerm p x = (p, UB)) \/
  (~ Forall (fun t => term_before t x) p /\ snd (appendTerm p x) = Abort /\ exists t, In t p /\ factors t = factors x /\ ~ add_safe t x) \/
  (~ Forall (fun t => term_before t x) p /\ exists q, appendTerm p x = (q, Ok tt) /\ poly_ok q /\
     forall rho, (pval rho q == pval rho p + tval rho x)%Q).
Proof.
  intros p x Hp Hx. pose proof (appendTerm_cases p x Hp Hx) as A.
  assert (NF : forall a t b, p = a ++ t :: b -> ~ term_before t x -> ~ Forall (fun t => term_before t x) p).
  { intros a t b -> N F. rewrite Forall_forall in F. apply N, F. rewrite in_app_iff. cbn. auto. }
  destruct A as [F|a t b p' E N Ft S|a t b c E F N Ft S Rc Vc|a t b E F N Ft] eqn:EA; auto.
  - right. left. splits; eauto. exists t. splits; auto. rewrite E, in_app_iff. cbn. auto.
  - right. right. split; eauto. eexists. split; [reflexivity|]. eapply appended_ok; eauto.
  - right. right. split; eauto. eexists. split; [reflexivity|]. eapply appended_ok; eauto.
Qed.
Lemma single_before a b s t f g : single a f s -> single b g t -> (term_before s t <-> factor_before f g).
Proof.
  intros (_ & _ & Es) (_ & _ & Et). unfold term_before. rewrite Es, Et. cbn [length map snd]. split.
  - intros [H|(n & f' & g' & E1 & E2 & H)]; [lia|]. destruct n as [|n]; [injection E1 as <-; injection E2 as <-; auto|].
    destruct n; discriminate.
  - intros H. right. exists 0%nat, f, g. auto.
Qed.
Lemma single_val c f t rho : single c f t -> (tval rho t == c * fval rho f)%Q.
Proof. intros (_ & Ec & Et). unfold tval. rewrite Et, Ec. cbn [map snd fsval fold_right]. ring. Qed.
Lemma minus_factor_ok g : factor_ok g -> exists t, minus_factor g = Ok t /\ single (-1) g t.
Proof.
  intros Hg. unfold minus_factor. destruct (Frac_of_int_ok (-1)) as (c & -> & Rc & Vc); [unfold INT32_MIN, INT32_MAX; lia|]. cbn [bind].
  destruct (Term_of_ok c g Rc Hg) as [-> Ht]. eexists. split; [reflexivity|]. split; [exact Ht|]. split; [exact Vc|reflexivity].
Qed.
(** the coefficient 1 and -1, as they are stored *)
Lemma one_parts c : Frac_of_int 1 = Ok c -> val (top c) = 1 /\ val (bot c) = 1.
Proof. intros [= <-]. split; reflexivity. Qed.
Lemma minus_one_parts c : Frac_of_int (-1) = Ok c -> val (top c) = -1 /\ val (bot c) = 1.
Proof. intros [= <-]. split; reflexivity. Qed.
Lemma append_one u t : term_ok u -> term_ok t -> (factors u = factors t -> add_safe u t) ->
  (term_before u t -> appendTerm [u] t = ([u], UB)) /\
  (~ term_before u t -> exists q, appendTerm [u] t = (q, Ok tt) /\ poly_ok q /\ forall rho, (pval rho q == tval rho u + tval rho t)%Q).
Proof.
  intros Hu Ht S. assert (Hp : poly_ok [u]) by (constructor; [auto|constructor]).
  destruct (C55_append_partial [u] t Hp Ht) as [[F E]|[(N & E & t' & [<-|[]] & Ef & Ns)|(N & q & E & Hq & V)]].
  - inversion F; subst. split; [auto|contradiction].
  - exfalso. auto.
  - split; [intros T; exfalso; apply N; constructor; auto|]. intros _. exists q. splits; auto. intros rho. rewrite V. cbn [pval fold_right]. ring.
Qed.
(** f + g: undefined exactly when f sorts before g, otherwise the sum. *)
Theorem C55_factors_partial : forall f g, factor_ok f -> factor_ok g ->
  (factor_before f g -> factor_add f g = UB /\ factor_sub f g = UB) /\
  (~ factor_before f g -> exists p q, factor_add f g = Ok p /\ factor_sub f g = Ok q /\ poly_ok p /\ poly_ok q /\
     forall rho, (pval rho p == fval rho f + fval rho g)%Q /\ (pval rho q == fval rho f - fval rho g)%Q).
Proof.
  intros f g Hf Hg. unfold factor_add, factor_sub, Poly_of_factor, Poly_of_term.
  destruct (Term_of_factor_ok f Hf) as (u & Eu & Su). destruct (Term_of_factor_ok g Hg) as (v & Ev & Sv). destruct (minus_factor_ok g Hg) as (w & Ew & Sw).
  rewrite Eu, Ev, Ew. cbn [bind].
  assert (P1 : forall t h, Term_of_factor h = Ok t -> factor_ok h -> val (top (coeff t)) = 1 /\ val (bot (coeff t)) = 1).
  { intros t h E Hh. unfold Term_of_factor in E. destruct (Frac_of_int 1) as [c| | | |] eqn:Ec; try discriminate. cbn [bind] in E.
    pose proof (Term_of_ok c h ltac:(destruct (Frac_of_int_ok 1) as (c' & E' & R & _); [unfold INT32_MIN, INT32_MAX; lia|congruence]) Hh) as [T _].
    unfold Term_of in T. rewrite T in E. injection E as <-. apply one_parts, Ec. }
  assert (P2 : val (top (coeff w)) = -1 /\ val (bot (coeff w)) = 1).
  { unfold minus_factor in Ew. destruct (Frac_of_int (-1)) as [c| | | |] eqn:Ec; try discriminate. cbn [bind] in Ew.
    pose proof (Term_of_ok c g ltac:(destruct (Frac_of_int_ok (-1)) as (c' & E' & R & _); [unfold INT32_MIN, INT32_MAX; lia|congruence]) Hg) as [T _].
    rewrite T in Ew. injection Ew as <-. apply minus_one_parts, Ec. }
  pose proof (P1 u f Eu Hf) as [U1 U2]. pose proof (P1 v g Ev Hg) as [V1 V2]. destruct P2 as [W1 W2].
  destruct (append_one u v) as [A1 A2]; [apply Su|apply Sv|intros _; unfold add_safe; rewrite U1, U2, V1, V2; apply norm_safe_small; lia|].
  destruct (append_one u w) as [B1 B2]; [apply Su|apply Sw|intros _; unfold add_safe; rewrite U1, U2, W1, W2; apply norm_safe_small; lia|].
  rewrite (single_before _ _ _ _ _ _ Su Sv) in A1, A2. rewrite (single_before _ _ _ _ _ _ Su Sw) in B1, B2. split.
  - intros H. rewrite A1, B1 by auto. auto.
  - intros H. destruct (A2 H) as (p & -> & Hp & Vp). destruct (B2 H) as (q & -> & Hq & Vq). exists p, q. splits; auto.
    intros rho. rewrite Vp, Vq. rewrite (single_val _ _ _ rho Su), (single_val _ _ _ rho Sv), (single_val _ _ _ rho Sw). split; ring.
Qed.
(** t + u and t - u *)
Theorem C55_terms_partial : forall t u, term_ok t -> term_ok u ->
  (term_before t u -> term_add t u = UB) /\
  (~ term_before t u -> factors t = factors u -> ~ add_safe t u -> term_add t u = Abort) /\
  (~ term_before t u -> (factors t = factors u -> add_safe t u) ->
     exists p, term_add t u = Ok p /\ poly_ok p /\ forall rho, (pval rho p == tval rho t + tval rho u)%Q).
Proof.
  intros t u Ht Hu. unfold term_add, Poly_of_term. cbn [bind]. splits.
  - intros H. assert (Hp : poly_ok [t]) by (constructor; [auto|constructor]).
    destruct (C55_append_partial [t] u Hp Hu) as [[F ->]|[(N & _)|(N & _)]]; [reflexivity|exfalso; apply N; constructor; auto|exfalso; apply N; constructor; auto].
  - intros N F S. pose proof (appendTerm_cases [t] u ltac:(constructor; [auto|constructor]) Hu) as A.
    inversion A as [Fa|a t0 b p' E N0 F0 S0|a t0 b c E Fa N0 F0 S0 Rc Vc|a t0 b E Fa N0 F0].
    + inversion Fa; contradiction.
    + reflexivity.
    + destruct a as [|? [|]]; try discriminate. injection E as <- _. contradiction.
    + destruct a as [|? [|]]; try discriminate. injection E as <- _. contradiction.
  - intros N S. destruct (append_one t u Ht Hu S) as [_ H]. destruct (H N) as (q & -> & Hq & V). exists q. splits; auto.
Qed.
Theorem C55_term_sub_partial : forall t u, term_ok t -> term_ok u ->
  (~ norm_safe (val (top (coeff u))) (val (bot (coeff u))) -> term_sub t u = Abort) /\
  (norm_safe (val (top (coeff u))) (val (bot (coeff u))) -> 
     exists m, negate_term u = (m, Ok tt) /\ term_ok m /\ factors m = factors u /\ (Fval (coeff m) == - Fval (coeff u))%Q /\
       (term_before t u -> term_sub t u = UB) /\
       (~ term_before t u -> (factors t = factors u -> add_safe t m) ->
          exists p, term_sub t u = Ok p /\ poly_ok p /\ forall rho, (pval rho p == tval rho t - tval rho u)%Q)).
Proof.
  intros t u Ht Hu. destruct (negate_term_ok u Hu) as [H1 H2]. unfold term_sub, Poly_of_term. cbn [bind]. split.
  - intros N. apply H1 in N. destruct (negate_term u) as [m r]. cbn in N. subst r. reflexivity.
  - intros S. destruct (H2 S) as (c & E & Rc & Vc). rewrite E. cbn [final bind].
    exists (mkTerm c (factors u)). assert (Hm : term_ok (mkTerm c (factors u))) by (split; [auto|apply Hu]).
    destruct (C55_terms_partial t (mkTerm c (factors u)) Ht Hm) as (A & _ & C).
    destruct (before_factors (mkTerm c (factors u)) u t eq_refl) as [_ BF]. rewrite BF in A, C.
    splits; auto. intros N F. destruct (C N F) as (p & E2 & Hp & V). exists p. splits; auto. intros rho. rewrite V. unfold tval. cbn [coeff factors]. rewrite Vc. ring.
Qed.
(** p += f and p -= f *)
Theorem C55_assign_partial : forall p f, poly_ok p -> factor_ok f -> exists t u, single 1 f t /\ single (-1) f u /\
  poly_add_assign p f = appendTerm p t /\ poly_sub_assign p f = appendTerm p u /\
  (forall q, poly_add_assign p f = (q, Ok tt) -> poly_ok q /\ forall rho, (pval rho q == pval rho p + fval rho f)%Q) /\
  (forall q, poly_sub_assign p f = (q, Ok tt) -> poly_ok q /\ forall rho, (pval rho q == pval rho p - fval rho f)%Q).
Proof.
  intros p f Hp Hf. destruct (Term_of_factor_ok f Hf) as (t & Et & St). destruct (minus_factor_ok f Hf) as (u & Eu & Su).
  unfold poly_add_assign, poly_sub_assign. rewrite Et, Eu. cbn [eval]. exists t, u. splits; auto.
  - intros q E. destruct (C55_append_partial p t Hp) as [[_ E2]|[(_ & E2 & _)|(_ & q' & E2 & Hq & V)]]; [apply St|rewrite E in E2; discriminate|rewrite E in E2; discriminate|].
    rewrite E in E2. injection E2 as <-. split; auto. intros rho. rewrite V, (single_val _ _ _ rho St). ring.
  - intros q E. destruct (C55_append_partial p u Hp) as [[_ E2]|[(_ & E2 & _)|(_ & q' & E2 & Hq & V)]]; [apply Su|rewrite E in E2; discriminate|rewrite E in E2; discriminate|].
    rewrite E in E2. injection E2 as <-. split; auto. intros rho. rewrite V, (single_val _ _ _ rho Su). ring.
Qed.
Example C55_ex : factor_add (fy 1) (fx 2) = Ok [xs (fr 1 1) 2; ys (fr 1 1) 1] /\ factor_add (fx 2) (fx 2) = Ok [xs (fr 2 1) 2] /\
  factor_sub (fy 3) (fx 2) = Ok [xs (fr (-1) 1) 2; ys (fr 1 1) 3] /\ factor_sub (fx 2) (fx 2) = Ok [xs (fr 0 1) 2] /\
  term_add (xs (fr 1 2) 1) (xs (fr 1 3) 1) = Ok [xs (fr 5 6) 1] /\ term_sub (xy (fr 1 2) 1 1) (xs (fr 1 3) 1) = Ok [xs (fr (-1) 3) 1; xy (fr 1 2) 1 1] /\
  term_add (xs (fr 1 2) 1) (xy (fr 1 3) 1 1) = UB.
Proof. vm_compute. splits; reflexivity. Qed.
Example C55_ex_assign : poly_sub_assign [ys (fr 1 1) 2] (fx 3) = ([xs (fr (-1) 1) 3; ys (fr 1 1) 2], Ok tt) /\
  poly_sub_assign [xs (fr 3 1) 2] (fx 2) = ([xs (fr 2 1) 2], Ok tt).
Proof. vm_compute. auto. Qed.
Print Assumptions C55_add_refuted.
Print Assumptions C55_append_partial.
Print Assumptions C55_factors_partial.
Print Assumptions C55_terms_partial.
Print Assumptions C55_term_sub_partial.
Print Assumptions C55_assign_partial.

(** ** C56 *)
(** x y^2 < x^2 y and x^2 y < x y^2. *)
Theorem C56_asymmetry_refuted : exists a b, term_ok a /\ term_ok b /\ term_lt a b = Ok true /\ term_lt b a = Ok true.
Proof. exists (xy (fr 1 1) 1 2), (xy (fr 1 1) 2 1). splits; [ext|ext|reflexivity|reflexivity]. Qed.
Theorem C56_transitivity_refuted : exists a b c, term_ok a /\ term_ok b /\ term_ok c /\
  term_lt a b = Ok true /\ term_lt b c = Ok true /\ term_lt a c = Ok false.
Proof. exists (xy (fr 1 1) 2 2), (xy (fr 1 1) 1 3), (xy (fr 1 1) 2 1). splits; [ext|ext|ext|reflexivity|reflexivity|reflexivity]. Qed.
Theorem C56_decides : forall x y, term_ok x -> term_ok y -> exists b, term_lt x y = Ok b /\ (b = true <-> term_before x y).
Proof. intros x y Hx Hy. exact (term_lt_ok x y (proj2 Hx) (proj2 Hy)). Qed.
(** What remains: irreflexive; "not before" is transitive; distinct variables or exponents are told apart. *)
Theorem C56_order_partial : 
  (forall x, term_ok x -> term_lt x x = Ok false) /\
  (forall x y z, term_ok x -> term_ok y -> term_ok z -> term_lt x y = Ok false -> term_lt y z = Ok false -> term_lt x z = Ok false) /\
  (forall x y, term_ok x -> term_ok y -> term_lt x y = Ok false -> term_lt y x = Ok false -> factors x = factors y).
Proof.
  assert (D : forall x y, term_ok x -> term_ok y -> (term_lt x y = Ok false <-> ~ term_before x y)).
  { intros x y Hx Hy. destruct (C56_decides x y Hx Hy) as ([|] & -> & H).
    - split; [discriminate|]. intros N. exfalso. apply N, H. auto.
    - split; auto. intros _. rewrite <- H. discriminate. }
  splits.
  - intros x Hx. apply D; auto. apply term_irrefl.
  - intros x y z Hx Hy Hz A1 A2. apply D in A1; auto. apply D in A2; auto. apply D; auto. exact (not_before_trans x y z (proj2 Hx) (proj2 Hy) (proj2 Hz) A1 A2).
  - intros x y Hx Hy A1 A2. apply D in A1; auto. apply D in A2; auto. exact (neither_before x y (proj2 Hx) (proj2 Hy) A1 A2).
Qed.
(** Among terms with at most one variable it is a strict weak ordering. *)
Theorem C56_one_variable_partial : forall x y z, term_ok x -> term_ok y -> term_ok z ->
  (length (factors x) <= 1)%nat -> (length (factors y) <= 1)%nat -> (length (factors z) <= 1)%nat ->
  (term_lt x y = Ok true -> term_lt y x = Ok false) /\
  (term_lt x y = Ok true -> term_lt y z = Ok true -> term_lt x z = Ok true).
Proof.
  assert (A : forall x y, term_ok x -> term_ok y -> (length (factors x) <= 1)%nat -> (length (factors y) <= 1)%nat -> term_before x y -> ~ term_before y x).
  { intros x y Hx Hy Lx Ly [H1|(n & f & g & E1 & E2 & H1)] [H2|(m & f' & g' & E3 & E4 & H2)]; try lia.
    - apply (f_equal (fun o => match o with Some _ => true | None => false end)) in E3 as E5.
      assert (m < length (map snd (factors x)))%nat as L by (apply nth_error_Some; congruence). rewrite map_length in L. lia.
    - assert (n < length (map snd (factors x)))%nat as L by (apply nth_error_Some; congruence).
      assert (n < length (map snd (factors y)))%nat as L2 by (apply nth_error_Some; congruence). rewrite map_length in L, L2. lia.
    - assert (n < length (map snd (factors x)))%nat as L by (apply nth_error_Some; congruence).
      assert (m < length (map snd (factors x)))%nat as L2 by (apply nth_error_Some; congruence). rewrite map_length in L, L2.
      assert (n = 0%nat /\ m = 0%nat) as [-> ->] by lia. rewrite E1 in E4. injection E4 as <-. rewrite E2 in E3. injection E3 as <-.
      eapply factor_irrefl, factor_trans; eauto. }
  intros x y z Hx Hy Hz Lx Ly Lz.
  destruct (C56_decides x y Hx Hy) as (b1 & -> & H1), (C56_decides y x Hy Hx) as (b2 & -> & H2), (C56_decides y z Hy Hz) as (b3 & -> & H3), (C56_decides x z Hx Hz) as (b4 & -> & H4).
  split.
  - intros [= E]. f_equal. destruct b2; auto. exfalso. apply (A x y); auto; [apply H1|apply H2]; auto.
  - intros [= E1] [= E2]. f_equal. apply H4. apply H1 in E1. apply H3 in E2.
    destruct (term_before_dec x z) as [|N]; [apply Hx|apply Hz|auto|]. exfalso.
    assert (N2 : ~ term_before z y) by (apply A; auto).
    apply (not_before_trans x z y); auto; [apply Hx|apply Hz|apply Hy].
Qed.
Example C56_ex : term_lt (xs (fr 1 1) 5) (ys (fr 1 1) 1) = Ok true /\ term_lt (ys (fr 1 1) 5) (xy (fr 1 1) 1 1) = Ok true /\
  term_lt (xy (fr 1 1) 1 1) (ys (fr 1 1) 5) = Ok true /\ term_lt (xs (fr 2 1) 5) (xs (fr 1 1) 5) = Ok false.
Proof. vm_compute. auto. Qed.
Example C56_ex_sorted : is_sorted [xs (fr 1 1) 1; ys (fr 1 1) 1] = Ok true /\ is_sorted [ys (fr 1 1) 1; xs (fr 1 1) 1] = Ok false /\
  is_sorted [xs (fr 1 1) 1; ys (fr 1 1) 2; ys (fr 1 1) 1] = Ok false /\ is_sorted [xs (fr 1 1) 1; ys (fr 1 1) 1; ys (fr 1 1) 2] = Ok true.
Proof. vm_compute. auto. Qed.
Print Assumptions C56_asymmetry_refuted.
Print Assumptions C56_transitivity_refuted.
Print Assumptions C56_decides.
Print Assumptions C56_order_partial.
Print Assumptions C56_one_variable_partial.

(** ** C57 *)
Theorem C57_decides : forall f g, factor_ok f -> factor_ok g -> exists l e n,
  factor_lt f g = Ok l /\ factor_eq f g = Ok e /\ factor_ne f g = Ok n /\
  (l = true <-> str_before (fid f) (fid g) \/ (fid f = fid g /\ val (power f) < val (power g))) /\
  (e = true <-> fid f = fid g /\ val (power f) = val (power g)) /\ (n = true <-> ~ (fid f = fid g /\ val (power f) = val (power g))).
Proof.
  intros f g Hf Hg. destruct (factor_lt_ok f g Hf Hg) as (l & E1 & H1), (factor_eq_ok f g Hf Hg) as (e & E2 & H2), (factor_ne_ok f g Hf Hg) as (n & E3 & H3).
  assert (Q : f = g <-> fid f = fid g /\ val (power f) = val (power g)).
  { split; [intros ->; auto|]. intros [E V]. destruct f as [kf pf], g as [kg pg]. cbn in *. subst. f_equal. apply canonical_unique_lemma; auto. }
  exists l, e, n. rewrite H1, H2, H3, Q. splits; auto; reflexivity.
Qed.
Theorem C57_strict_total : 
  (forall f, ~ factor_before f f) /\ (forall f g h, factor_before f g -> factor_before g h -> factor_before f h) /\
  (forall f g, factor_ok f -> factor_ok g -> factor_before f g \/ f = g \/ factor_before g f).
Proof. splits; [exact factor_irrefl|exact factor_trans|exact factor_total]. Qed.
(** The dictionary order of the names, likewise. *)
Theorem C57_names : (forall a, ~ str_before a a) /\ (forall a b c, str_before a b -> str_before b c -> str_before a c) /\
  (forall a b, str_before a b \/ a = b \/ str_before b a).
Proof. splits; [exact str_irrefl|exact str_trans|exact str_total]. Qed.
Example C57_ex : factor_lt (fx 9) (fy (-3)) = Ok true /\ factor_lt (mkFactor (nm "x") (i 2)) (mkFactor (nm "x1") (i 1)) = Ok true /\
  factor_lt (fx 10) (fx 9) = Ok false /\ factor_eq (fx 10) (fx 10) = Ok true /\ factor_lt (mkFactor (nm "") (i 1)) (fx 0) = Ok true /\
  factor_lt (mkFactor (nm "yx") (i 1)) (mkFactor (nm "xy") (i 1)) = Ok false.
Proof. vm_compute. auto 10. Qed.
Print Assumptions C57_decides.
Print Assumptions C57_strict_total.
Print Assumptions C57_names.

(** ** C62: Factor printing *)
(** x^(10^9) is printed as x. *)
Theorem C62_print_refuted : factor_ok (mkFactor (nm "x") (i 1000000000)) /\
  factor_print (mkOut [] 0 " "%char) (mkFactor (nm "x") (i 1000000000)) = Ok (mkOut (nm "x") 0 " "%char) /\
  ~ factor_text (mkFactor (nm "x") (i 1000000000)) (nm "x").
Proof.
  splits; [unfold factor_ok; exc|reflexivity|]. inversion 1 as [H1|s H1 H2 H3]. vm_compute in H1. discriminate.
Qed.
Theorem C62_print_partial : forall f o, factor_ok f -> owidth o = 0 -> exists o' s,
  factor_print o f = Ok o' /\ obuf o' = obuf o ++ s /\ owidth o' = 0 /\ written f s.
Proof. intros f o Hf Ho. destruct (factor_print_ok f o Hf Ho) as (o' & s & H1 & H2 & H3 & H4). exists o', s. auto. Qed.
Lemma written_text f s : (forall n, val (power f) <> 10 ^ (9 * Z.of_nat (S n))) -> written f s -> factor_text f s.
Proof.
  intros N W. inversion W as [[n E]|s' E H]; subst.
  - apply ft_one. destruct n as [|n]; [exact E|]. exfalso. apply (N n), E.
  - apply ft_pow; auto. intros E1. apply E. exists 0%nat. exact E1.
Qed.
Theorem C62_print_text : forall f o, factor_ok f -> owidth o = 0 -> (forall n, val (power f) <> 10 ^ (9 * Z.of_nat (S n))) -> exists o' s,
  factor_print o f = Ok o' /\ obuf o' = obuf o ++ s /\ owidth o' = 0 /\ factor_text f s.
Proof. intros f o Hf Ho N. destruct (C62_print_partial f o Hf Ho) as (o' & s & H1 & H2 & H3 & H4). exists o', s. splits; auto. apply written_text; auto. Qed.
Theorem C62_small_power : forall f n, Z.abs (val (power f)) < 10 ^ 9 -> val (power f) <> 10 ^ (9 * Z.of_nat (S n)).
Proof.
  intros f n H E. assert (10 ^ 9 <= 10 ^ (9 * Z.of_nat (S n))) by (apply Z.pow_le_mono_r; lia). lia.
Qed.
Example C62_ex : factor_print (mkOut (nm "2*") 0 " "%char) (fx (-12)) = Ok (mkOut (nm "2*x^-12") 0 " "%char) /\
  factor_print (mkOut [] 0 " "%char) (fx 1) = Ok (mkOut (nm "x") 0 " "%char) /\
  factor_print (mkOut [] 0 " "%char) (fx 0) = Ok (mkOut (nm "x^0") 0 " "%char).
Proof. vm_compute. auto. Qed.
Print Assumptions C62_print_refuted.
Print Assumptions C62_print_partial.
Print Assumptions C62_print_text.

(** ** C63, C64: Term and Poly printing *)
Definition plain_powers (t : Term) : Prop := forall k n, exponent t k <> 10 ^ (9 * Z.of_nat (S n)).
Lemma exponent_in t f : term_ok t -> In f (map snd (factors t)) -> exponent t (fid f) = val (power f).
Proof.
  intros [_ M]. unfold exponent. destruct t as [c m]. cbn [factors] in *. induction m as [|[k g] m IH]; [intros []|].
  cbn [map snd In]. apply map_ok_cons in M as (Ek & Hg & Fk & Mm). rewrite total_cons. intros [<-|I].
  - rewrite degree_eq, total_notin; auto; [lia|]. rewrite Ek. apply not_In_before, Fk.
  - rewrite IH; auto. rewrite degree_ne; [lia|]. apply in_map_iff in I as ([k' f'] & E & I). cbn in E. subst f'.
    destruct Mm as [_ Mm]. rewrite Forall_forall in Mm. destruct (Mm _ I) as [E _]. cbn in E. rewrite E, Ek. intros <-.
    rewrite Forall_forall in Fk. apply (str_irrefl k), Fk. apply in_map_iff. exists (k, f). auto.
Qed.
Lemma term_written_text t s : term_ok t -> plain_powers t -> term_written t s -> term_text t s.
Proof.
  intros Ht P W. assert (L : forall l, Forall2 written (map snd (factors t)) l -> Forall2 factor_text (map snd (factors t)) l).
  { intros l H. assert (Q : forall f, In f (map snd (factors t)) -> forall n, val (power f) <> 10 ^ (9 * Z.of_nat (S n))).
    { intros f I n. intros E. apply (P (fid f) n). rewrite <- E. apply exponent_in; auto. }
    revert Q. induction H; constructor; [apply written_text; auto; apply Q; left; auto|]. apply IHForall2. intros f I. apply Q. right. auto. }
  inversion W; subst; [apply tt_zero|apply tt_unit|apply tt_one|apply tt_coeff]; auto.
Qed.
Theorem C63_print_refuted : exists t, term_ok t /\ term_print (mkOut [] 0 " "%char) t = Ok (mkOut (nm "(2/1) * x") 0 " "%char) /\
  exponent t (nm "x") = 1000000000 /\ term_print (mkOut [] 0 " "%char) (xs (fr 2 1) 1) = term_print (mkOut [] 0 " "%char) t.
Proof. exists (xs (fr 2 1) 1000000000). splits; [ext|reflexivity|reflexivity|reflexivity]. Qed.
Theorem C63_print_partial : forall t o, term_ok t -> owidth o = 0 -> exists o' s,
  term_print o t = Ok o' /\ obuf o' = obuf o ++ s /\ owidth o' = 0 /\ term_written t s.
Proof. intros t o Ht Ho. destruct (term_print_ok t o Ht Ho) as (o' & s & H1 & H2 & H3 & H4). exists o', s. auto. Qed.
Theorem C63_print_text : forall t o, term_ok t -> owidth o = 0 -> plain_powers t -> exists o' s,
  term_print o t = Ok o' /\ obuf o' = obuf o ++ s /\ owidth o' = 0 /\ term_text t s.
Proof. intros t o Ht Ho P. destruct (term_print_ok t o Ht Ho) as (o' & s & H1 & H2 & H3 & H4). exists o', s. splits; auto. apply term_written_text; auto. Qed.
Example C63_ex : term_print (mkOut [] 0 " "%char) (xy (fr (-2) 3) 1 5) = Ok (mkOut (nm "(-2/3) * x * y^5") 0 " "%char) /\
  term_print (mkOut [] 0 " "%char) (xy (fr 1 1) 2 1) = Ok (mkOut (nm "x^2 * y") 0 " "%char) /\
  term_print (mkOut [] 0 " "%char) (xy (fr 0 1) 2 1) = Ok (mkOut (nm "0") 0 " "%char) /\
  term_print (mkOut [] 0 " "%char) (mkTerm (fr 1 1) []) = Ok (mkOut (nm "1") 0 " "%char) /\
  term_print (mkOut [] 0 " "%char) (mkTerm (fr 5 7) []) = Ok (mkOut (nm "(5/7)") 0 " "%char).
Proof. vm_compute. splits; reflexivity. Qed.
Print Assumptions C63_print_refuted.
Print Assumptions C63_print_partial.
Print Assumptions C63_print_text.

Theorem C64_print : forall p o, poly_ok p -> owidth o = 0 -> Forall plain_powers p -> exists o' ss,
  poly_print o p = Ok o' /\ Forall2 term_text p ss /\ obuf o' = obuf o ++ join plus_sep ss /\ owidth o' = 0.
Proof.
  intros p o Hp Ho Pp. destruct (poly_print_ok p o Hp Ho) as (o' & ss & H1 & H2 & H3 & H4). exists o', ss. splits; auto.
  clear - Hp Pp H2. induction H2; constructor; inversion Hp; subst; inversion Pp; subst; auto. apply term_written_text; auto.
Qed.
(** Without the condition on the exponents: each term as C63_print_partial says. *)
Theorem C64_print_any : forall p o, poly_ok p -> owidth o = 0 -> exists o' ss,
  poly_print o p = Ok o' /\ Forall2 term_written p ss /\ obuf o' = obuf o ++ join plus_sep ss /\ owidth o' = 0.
Proof. exact poly_print_ok. Qed.
Example C64_ex : poly_print (mkOut (nm "p = ") 0 " "%char) [mkTerm (fr 3 1) []; xs (fr 1 1) 2; xy (fr (-1) 2) 1 1] =
  Ok (mkOut (nm "p = (3/1) + x^2 + (-1/2) * x * y") 0 " "%char) /\ poly_print (mkOut (nm "p = ") 0 " "%char) [] = Ok (mkOut (nm "p = ") 0 " "%char).
Proof. vm_compute. auto. Qed.
Print Assumptions C64_print.
Print Assumptions C64_print_any.

(** ** C65: Term == *)
Theorem C65_equality : forall x y, term_ok x -> term_ok y -> exists b, term_eq x y = Ok b /\
  (b = true <-> (forall k, occurs x k <-> occurs y k) /\ (forall k, exponent x k = exponent y k)).
Proof.
  intros x y [_ Hx] [_ Hy]. destruct (term_eq_ok x y Hx Hy) as (b & E & H). exists b. split; auto. rewrite H. apply factors_unique; auto.
Qed.
(** == holds exactly when neither term is less than the other. *)
Theorem C65_neither_less : forall x y, term_ok x -> term_ok y ->
  (term_eq x y = Ok true <-> term_lt x y = Ok false /\ term_lt y x = Ok false).
Proof.
  intros x y Hx Hy. destruct (term_eq_ok x y (proj2 Hx) (proj2 Hy)) as (b & -> & H). split.
  - intros [= E]. apply H in E. pose proof (term_irrefl x) as N.
    destruct (C56_decides x y Hx Hy) as (b1 & -> & H1), (C56_decides y x Hy Hx) as (b2 & -> & H2).
    destruct (before_factors x y x E) as [_ F1]. destruct (before_factors x y x E) as [F2 _].
    split; f_equal; [destruct b1|destruct b2]; auto; exfalso; [apply N, F1, H1|apply N, F2, H2]; auto.
  - intros [E1 E2]. f_equal. apply H. apply C56_order_partial; auto.
Qed.
Example C65_ex : term_eq (xy (fr 1 2) 1 2) (xy (fr 3 1) 1 2) = Ok true /\ term_eq (xy (fr 1 2) 1 2) (xy (fr 1 2) 2 1) = Ok false /\
  term_eq (xs (fr 1 2) 1) (ys (fr 1 2) 1) = Ok false /\ term_eq (xy (fr 1 2) 1 0) (xs (fr 1 2) 1) = Ok false.
Proof. vm_compute. auto. Qed.
Print Assumptions C65_equality.
Print Assumptions C65_neither_less.

(** ** C66: appendTerms *)
(** A polynomial that appendTerm built is not sorted in the sense std::list::merge needs. *)
Definition p3 : Poly := [xy (fr 1 1) 1 2; xy (fr 1 1) 2 1; xy (fr 1 1) 2 2].
Theorem C66_built_refuted : append_each [xy (fr 1 1) 2 2] [xy (fr 1 1) 1 2; xy (fr 1 1) 2 1] = (p3, Ok tt) /\ appendTerms p3 [] = UB.
Proof. split; reflexivity. Qed.
(** Merging sorted lists need not give a sorted list, and does not combine like terms. *)
Theorem C66_sorted_refuted : exists p l r, poly_ok p /\ poly_ok l /\ merge_sorted p /\ merge_sorted l /\ appendTerms p l = Ok r /\ ~ merge_sorted r.
Proof.
  exists [xy (fr 1 1) 1 2], [xy (fr 1 1) 2 1], [xy (fr 1 1) 2 1; xy (fr 1 1) 1 2].
  assert (H1 : term_ok (xy (fr 1 1) 1 2)) by ext. assert (H2 : term_ok (xy (fr 1 1) 2 1)) by ext.
  splits; [constructor; [exact H1|constructor]|constructor; [exact H2|constructor]|repeat constructor|repeat constructor|reflexivity|].
  intros S. apply FOP_cons in S as [S _]. inversion S as [|? ? N _]; subst. apply N.
  destruct (C56_decides _ _ H1 H2) as (b & E & H). apply H. vm_compute in E. congruence.
Qed.
Theorem C66_merge_partial : forall p l, poly_ok p -> poly_ok l ->
  (merge_sorted p /\ merge_sorted l /\ exists r, appendTerms p l = Ok r /\ Permutation (p ++ l) r /\ poly_ok r /\
     forall rho, (pval rho r == pval rho p + pval rho l)%Q) \/
  (~ (merge_sorted p /\ merge_sorted l) /\ appendTerms p l = UB).
Proof.
  intros p l Hp Hl. destruct (appendTerms_ok p l Hp Hl) as [H1 H2].
  assert (D : (merge_sorted p /\ merge_sorted l) \/ ~ (merge_sorted p /\ merge_sorted l)).
  { destruct (is_sorted_ok p Hp) as ([|] & _ & A), (is_sorted_ok l Hl) as ([|] & _ & B); try (left; split; [apply A|apply B]; auto; fail);
    right; intros [C1 C2]; [apply B in C2|apply A in C1|apply A in C1]; discriminate. }
  destruct D as [D|D]; [left|right; auto]. destruct (H1 D) as (r & E & P). destruct D. splits; auto. exists r. splits; auto.
  - apply (Permutation_Forall P). apply Forall_app. auto.
  - intros rho. rewrite <- (pval_perm rho _ _ P), pval_app. reflexivity.
Qed.
(** With no two terms before each other both ways -- for example at most one variable
    each -- the result is sorted again. *)
Theorem C66_stays_sorted_partial : forall p l r, poly_ok p -> poly_ok l ->
  (forall x y, In x p -> In y l -> term_before y x -> ~ term_before x y) -> appendTerms p l = Ok r -> merge_sorted r.
Proof. exact appendTerms_sorted. Qed.
Example C66_ex : appendTerms [xs (fr 1 1) 1; ys (fr 2 1) 3] [xs (fr 5 1) 1; xs (fr 1 3) 4; xy (fr 1 1) 7 7] =
    Ok [xs (fr 1 1) 1; xs (fr 5 1) 1; xs (fr 1 3) 4; xy (fr 1 1) 7 7; ys (fr 2 1) 3] /\
  appendTerms [ys (fr 1 1) 1; xs (fr 1 1) 1] [] = UB.
Proof. vm_compute. auto. Qed.
Print Assumptions C66_built_refuted.
Print Assumptions C66_sorted_refuted.
Print Assumptions C66_merge_partial.
Print Assumptions C66_stays_sorted_partial.

(** ** C67: like terms are combined *)
Theorem C67_history : forall l p q, poly_ok p -> poly_ok l -> ascending p -> append_each p l = (q, Ok tt) ->
  poly_ok q /\ ascending q /\ NoDup (map factors q) /\ forall rho, (pval rho q == pval rho p + pval rho l)%Q.
Proof.
  intros l p q Hp Hl Ap E. destruct (append_each_ok l p q Hp Hl E) as (Hq & V & A). splits; auto. apply ascending_distinct; auto.
Qed.
Theorem C67_like_term : forall p x q, poly_ok p -> term_ok x -> ascending p -> appendTerm p x = (q, Ok tt) ->
  (In (factors x) (map factors p) -> map factors q = map factors p) /\
  (~ In (factors x) (map factors p) -> exists a b, p = a ++ b /\ q = a ++ x :: b /\ Forall (fun t => term_before t x) a).
Proof.
  intros p x q Hp Hx Ap E. pose proof (appendTerm_cases p x Hp Hx) as A. rewrite E in A.
  inversion A as [|a t b p' E1 N Ft S Eq|a t b c E1 F N Ft S Rc Vc|a t b E1 F N Ft]; subst.
  - split.
    + intros _. rewrite !map_app. cbn [map factors]. rewrite Ft. reflexivity.
    + intros NI. exfalso. apply NI. rewrite map_app, in_app_iff. cbn [map In]. auto.
  - split.
    + intros I. exfalso. rewrite map_app, in_app_iff in I. cbn [map In] in I.
      apply FOP_app in Ap as (_ & Ap & Aab). apply FOP_cons in Ap as [Ap _]. rewrite Forall_forall in F, Ap.
      destruct I as [I|[I|I]]; [| |]; auto; apply in_map_iff in I as (u & Eu & Iu).
      * apply (term_irrefl u). apply (before_factors u x u Eu). auto.
      * apply N. apply (before_factors u x t Eu). auto.
    + intros _. exists a, (t :: b). auto.
Qed.
(** numTerms: unchanged for a like term, one more otherwise *)
Theorem C67_count : forall p x q, poly_ok p -> term_ok x -> ascending p -> appendTerm p x = (q, Ok tt) ->
  (In (factors x) (map factors p) -> numTerms q = numTerms p) /\ (~ In (factors x) (map factors p) -> numTerms q = S (numTerms p)).
Proof.
  intros p x q Hp Hx Ap E. destruct (C67_like_term p x q Hp Hx Ap E) as [H1 H2]. unfold numTerms. split.
  - intros I. apply H1 in I. rewrite <- (map_length factors q), I, map_length. reflexivity.
  - intros I. destruct (H2 I) as (a & b & -> & -> & _). rewrite !app_length. cbn [length]. lia.
Qed.
Example C67_ex : append_each [xy (fr 1 1) 2 2] [xs (fr 1 2) 1; xy (fr 1 1) 2 1; xs (fr 1 3) 1; xy (fr 4 1) 1 2] =
  ([xs (fr 5 6) 1; xy (fr 1 1) 2 1; xy (fr 4 1) 1 2; xy (fr 1 1) 2 2], Ok tt) /\ ascending [xy (fr 1 1) 2 2].
Proof. split; [reflexivity|]. repeat constructor. Qed.
Print Assumptions C67_history.
Print Assumptions C67_like_term.
Print Assumptions C67_count.

(** ** C68: polynomials from vectors *)
(** The constructors from a vector start from no terms, where appendTerm dereferences end(). *)
Theorem C68_vector_refuted : forall x l, term_ok x -> Poly_of_terms (x :: l) = UB.
Proof.
  intros x l Hx. unfold Poly_of_terms. cbn [append_each].
  destruct (C55_append_partial [] x (Forall_nil _) Hx) as [[_ ->]|[(N & _)|(N & _)]]; [reflexivity| |]; exfalso; apply N; constructor.
Qed.
Theorem C68_factor_vector_refuted : forall f l, factor_ok f -> Poly_of_factors (f :: l) = UB.
Proof.
  intros f l Hf. unfold Poly_of_factors. cbn [append_each_factor]. destruct (Term_of_factor_ok f Hf) as (t & -> & St). cbn [eval].
  destruct (C55_append_partial [] t (Forall_nil _) (proj1 St)) as [[_ ->]|[(N & _)|(N & _)]]; [reflexivity| |]; exfalso; apply N; constructor.
Qed.
Theorem C68_others_partial : Poly_of_terms [] = Ok [] /\ Poly_of_factors [] = Ok [] /\ (forall x, Poly_of_term x = Ok [x]) /\
  (forall f, factor_ok f -> exists p, Poly_of_factor f = Ok p /\ poly_ok p /\ ascending p /\ forall rho, (pval rho p == fval rho f)%Q).
Proof.
  splits; try reflexivity. intros f Hf. unfold Poly_of_factor. destruct (Term_of_factor_ok f Hf) as (t & -> & St). cbn [bind].
  eexists. splits; [reflexivity| | |].
  - constructor; [apply St|constructor].
  - repeat constructor.
  - intros rho. cbn [pval fold_right]. rewrite (single_val _ _ _ rho St). ring.
Qed.
Example C68_ex : Poly_of_terms [xs (fr 1 1) 1; ys (fr 1 1) 1] = UB /\ Poly_of_factors [fx 1] = UB /\ Poly_of_factor (fx 3) = Ok [xs (fr 1 1) 3].
Proof. vm_compute. auto. Qed.
Print Assumptions C68_vector_refuted.
Print Assumptions C68_factor_vector_refuted.
Print Assumptions C68_others_partial.
