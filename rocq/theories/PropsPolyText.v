(** Property theorems: printed factors, terms and polynomials can be told apart, C118. *)
From Coq Require Import Ascii String QArith List Lia.
From Verif Require Import Base IntModel IntSpec IntBasics FracModel FracSpec FracProofs FracIO IOModel IOSpec IOProofs
  PolyModel PolySpec PolyProofs PolyTerms PolyPoly PolyTextSpec PolyText PropsFrac PropsPoly.
Import ListNotations.
Local Open Scope Z_scope.
Local Open Scope list_scope.

(** ** C118 *)
Theorem C118_factor : forall f g o a b, factor_ok f -> factor_ok g -> clear_name (fid f) -> clear_name (fid g) -> owidth o = 0 ->
  factor_print o f = Ok a -> factor_print o g = Ok b -> (obuf a = obuf b <-> looks_factor f g).
Proof.
  intros f g o a b Hf Hg Nf Ng Ho E1 E2. destruct (factor_print_ok f o Hf Ho) as (a' & s & A & Ws & A1 & _), (factor_print_ok g o Hg Ho) as (b' & u & B & Wu & B1 & _).
  rewrite A in E1. rewrite B in E2. injection E1 as <-. injection E2 as <-. rewrite A1, B1. split.
  - intros E. apply app_inv_head in E. subst u. eapply written_looks; eauto.
  - intros L. f_equal. eapply written_same; [|exact Wu]. eapply looks_written; eauto.
Qed.
Theorem C118_term : forall t u o a b, term_ok t -> term_ok u -> clear_term t -> clear_term u -> owidth o = 0 ->
  term_print o t = Ok a -> term_print o u = Ok b -> (obuf a = obuf b <-> looks_term t u).
Proof.
  intros f g o a b Hf Hg Nf Ng Ho E1 E2. destruct (term_print_ok f o Hf Ho) as (a' & s & A & Ws & A1 & _), (term_print_ok g o Hg Ho) as (b' & u & B & Wu & B1 & _).
  rewrite A in E1. rewrite B in E2. injection E1 as <-. injection E2 as <-. rewrite A1, B1. split.
  - intros E. apply app_inv_head in E. subst u. eapply term_written_inj; eauto.
  - intros L. f_equal. eapply term_same; [|exact Wu]. eapply looks_words; eauto.
Qed.
Theorem C118_poly : forall p q o a b, poly_ok p -> poly_ok q -> Forall clear_term p -> Forall clear_term q -> owidth o = 0 ->
  poly_print o p = Ok a -> poly_print o q = Ok b -> (obuf a = obuf b <-> looks_poly p q).
Proof.
  intros p q o a b Hp Hq Np Nq Ho E1 E2. destruct (poly_print_ok p o Hp Ho) as (a' & s & A & Ws & A1 & _), (poly_print_ok q o Hq Ho) as (b' & u & B & Wu & B1 & _).
  rewrite A in E1. rewrite B in E2. injection E1 as <-. injection E2 as <-. rewrite A1, B1. split.
  - intros E. apply app_inv_head in E. eapply poly_written_inj; eauto.
  - intros L. f_equal. f_equal. clear - L Ws Wu. revert s u Ws Wu. induction L as [|t t' p q H L IH]; intros s u Ws Wu; inversion Ws; inversion Wu; subst; auto.
    f_equal; [eapply term_same; [eapply looks_words; eauto|eauto]|auto].
Qed.

(** Exponents that are not 10^9, 10^18, ... and coefficients that are not zero: the
    text tells everything. *)
Lemma looks_same f g : factor_ok f -> factor_ok g -> (forall n, val (power f) <> 10 ^ (9 * Z.of_nat (S n))) ->
  (forall n, val (power g) <> 10 ^ (9 * Z.of_nat (S n))) -> looks_factor f g -> f = g.
Proof.
  intros Cf Cg Pf Pg [E H]. destruct f as [n p], g as [m q]. cbn [fid power] in *. subst m. f_equal. destruct H as [H|[[j H] [k K]]]; auto.
  apply canonical_unique_lemma; auto. destruct j as [|j]; [|exfalso; eapply Pf; eauto]. destruct k as [|k]; [|exfalso; eapply Pg; eauto]. congruence.
Qed.
Lemma looks_term_same t u : term_ok t -> term_ok u -> plain_powers t -> plain_powers u -> ~ (Fval (coeff t) == 0)%Q -> looks_term t u -> t = u.
Proof.
  intros Ot Ou Pt Pu N [[H _]|[E F]]; [contradiction|].
  assert (P : forall x f, term_ok x -> plain_powers x -> In f (map snd (factors x)) -> forall n, val (power f) <> 10 ^ (9 * Z.of_nat (S n))).
  { intros x f Ox Px I n. rewrite <- (exponent_in x f Ox I). apply Px. }
  assert (L : map snd (factors t) = map snd (factors u)).
  { pose proof (fun f => P t f Ot Pt) as P1. pose proof (fun f => P u f Ou Pu) as P2.
    pose proof (term_factors_ok t Ot) as K1. pose proof (term_factors_ok u Ou) as K2. clear - F P1 P2 K1 K2.
    induction F as [|f g l l' H F IH]; auto. inversion K1; inversion K2; subst. f_equal.
    - apply looks_same; auto; intros n; [apply P1|apply P2]; left; auto.
    - apply IH; auto; intros h I n; [apply P1|apply P2]; right; auto. }
  destruct t as [c m], u as [c' m']. cbn [coeff factors] in *. subst c'. f_equal. destruct Ot as [_ [_ M]], Ou as [_ [_ M']]. cbn [factors] in *. clear - L M M'.
  revert m' L M'. induction M as [|[k f] m [K _] M IH]; intros [|[k' f'] m'] L M'; cbn in *; try discriminate; auto.
  injection L as <- L. inversion M' as [|? ? [K' _] M1]; subst. cbn in *. subst. f_equal. auto.
Qed.
Theorem C118_exact : forall p q o a b, poly_ok p -> poly_ok q -> Forall clear_term p -> Forall clear_term q -> Forall plain_powers p -> Forall plain_powers q ->
  Forall (fun t => ~ (Fval (coeff t) == 0)%Q) p -> owidth o = 0 -> poly_print o p = Ok a -> poly_print o q = Ok b -> obuf a = obuf b -> p = q.
Proof.
  intros p q o a b Hp Hq Np Nq Pp Pq Zp Ho E1 E2 E. apply (C118_poly p q o a b) in E; auto. clear - Hp Hq Pp Pq Zp E.
  induction E as [|t u p q H E IH]; auto. inversion Hp; inversion Hq; inversion Pp; inversion Pq; inversion Zp; subst. f_equal; [apply looks_term_same; auto|auto].
Qed.
(** Each condition is needed: the name "x * y", the name "x^2", the name "1", the
    name "(2/1)", the empty name; 0 x and 0 y; x and x^(10^9). *)
Definition of_name (s : string) : Term := mkTerm (fr 1 1) [(nm s, mkFactor (nm s) (i 1))].
Definition look (p : Poly) : res chars := o <- poly_print (mkOut [] 0 " "%char) p ;; Ok (obuf o).
Example C118_conditions :
  look [of_name "x * y"] = look [xy (fr 1 1) 1 1] /\ look [of_name "x + y"] = look [xs (fr 1 1) 1; ys (fr 1 1) 1] /\
  look [of_name "x^2"] = look [xs (fr 1 1) 2] /\ look [of_name "1"] = look [mkTerm (fr 1 1) []] /\
  look [of_name "(2/1)"] = look [mkTerm (fr 2 1) []] /\ look [of_name ""] = look [] /\
  look [xs (fr 0 1) 1] = look [ys (fr 0 1) 1] /\ look [xs (fr 3 1) 1] = look [xs (fr 3 1) 1000000000].
Proof. vm_compute. auto 10. Qed.
Example C118_ex : clear_name (nm "x1") /\ clear_name (nm "alpha+") /\
  look [mkTerm (fr 3 1) []; xs (fr 1 1) 2; xy (fr (-1) 2) 1 1] = Ok (nm "(3/1) + x^2 + (-1/2) * x * y") /\
  look [mkTerm (fr 3 1) []; mkTerm (fr 1 1) []; xs (fr 1 1) (-12); xs (fr 0 1) 5] = Ok (nm "(3/1) + 1 + x^-12 + 0").
Proof.
  assert (N : forall c s, In c (nm s) -> existsb (Ascii.eqb c) (nm s) = true).
  { intros c s I. apply existsb_exists. exists c. split; auto. apply Ascii.eqb_refl. }
  splits; try (vm_compute; reflexivity); split.
  1, 3: eexists _, _; splits; [reflexivity|reflexivity|discriminate].
  all: split; intros I; apply N in I; discriminate I.
Qed.
Print Assumptions C118_factor.
Print Assumptions C118_term.
Print Assumptions C118_poly.
Print Assumptions C118_exact.
