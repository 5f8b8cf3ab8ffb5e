(** Programs of calls of Factor, Term and Poly. *)
From Coq Require Import Ascii QArith Qpower Permutation List.
From Verif Require Import Base IntModel IntSpec IntBasics FracModel FracSpec FracProofs IOModel ElemModel ElemSpec ElemProofs
  PolyModel PolySpec PolyProofs PolyTerms PolyPoly PropsPoly PolyCalls.
Local Open Scope Z_scope.
Local Open Scope list_scope.

Lemma nonzero_meaningful rho l : nonzero rho -> meaningful rho l.
Proof. intros H. apply Forall_forall. intros f _. left. apply H. Qed.

Definition rep_term (t : Term) (c : Q) (g : point -> Q) : Prop :=
  term_ok t /\ (Fval (coeff t) == c)%Q /\ forall rho, nonzero rho -> (fsval rho (map snd (factors t)) == g rho)%Q.
Definition rep_poly (p : Poly) (g : point -> Q) : Prop := poly_ok p /\ forall rho, nonzero rho -> (pval rho p == g rho)%Q.

Lemma rep_tval t c g rho : rep_term t c g -> nonzero rho -> (tval rho t == c * g rho)%Q.
Proof. intros (_ & E & G) H. unfold tval. rewrite E, G; [reflexivity|auto]. Qed.
Lemma stands_F s m d x v : stands s m -> factor_ok x -> v = (fid x, val (power x)) -> stands (putF s d x) (setF m d v).
Proof.
  intros (HF & HT & HP) Hx ->. split; [|split; [exact HT|exact HP]]. intros a. cbn. unfold put_at. destruct (Nat.eqb a d); auto.
Qed.
Lemma stands_T s m d x c g : stands s m -> rep_term x c g -> stands (putT s d x) (setT m d c g).
Proof.
  intros (HF & HT & HP) Hx. split; [exact HF|split; [|exact HP]]. intros a. cbn. unfold put_at. destruct (Nat.eqb a d); [exact Hx|apply HT].
Qed.
Lemma stands_P s m d x g : stands s m -> rep_poly x g -> stands (putP s d x) (setP m d g).
Proof.
  intros (HF & HT & HP) Hx. split; [exact HF|split; [exact HT|]]. intros a. cbn. unfold put_at. destruct (Nat.eqb a d); [exact Hx|apply HP].
Qed.

Lemma rep_single c f t : single c f t -> rep_term t c (fun rho => Qpower (rho (fid f)) (val (power f))).
Proof.
  intros (Ht & Ec & Et). split; [auto|]. split; [auto|]. intros rho _. rewrite Et. cbn [map snd fsval fold_right]. unfold fval. ring.
Qed.
Lemma rep_append x c g l t : rep_term x c g -> append_spec x l t -> rep_term t c (fun rho => g rho * fsval rho l)%Q.
Proof.
  intros ((R & M) & Ec & G) (A1 & A2 & _ & _ & A5). split; [split; [rewrite A1|]; auto|]. split; [rewrite A1; auto|].
  intros rho H. destruct (A5 rho) as [_ E]; auto using nonzero_meaningful. rewrite E, G; [reflexivity|auto].
Qed.
Lemma rep_ext t c g c' g' : rep_term t c g -> (c == c')%Q -> (forall rho, nonzero rho -> g rho == g' rho)%Q -> rep_term t c' g'.
Proof. intros (H1 & H2 & H3) Ec Eg. split; [auto|]. split; [rewrite H2; auto|]. intros rho H. rewrite H3, Eg; [reflexivity|auto|auto]. Qed.
Lemma rep_poly_ext p g g' : rep_poly p g -> (forall rho, nonzero rho -> g rho == g' rho)%Q -> rep_poly p g'.
Proof. intros (H1 & H2) Eg. split; [auto|]. intros rho H. rewrite H2, Eg; [reflexivity|auto|auto]. Qed.
Lemma rep_coeff t c g c' d : rep_term t c g -> reduced c' -> (Fval c' == d)%Q -> rep_term (mkTerm c' (factors t)) d g.
Proof. intros ((R & M) & Ec & G) R' E. split; [split; auto|]. split; auto. Qed.

(** multiplication of terms, by another or by itself *)
Lemma rep_mul x y o c g c' g' : rep_term x c g -> rep_term y c' g' -> (o = Some y \/ o = None /\ x = y) ->
  match final (term_mul_assign x o) with
  | Ok t => rep_term t (c * c') (fun rho => g rho * g' rho)%Q
  | Abort => True
  | _ => False
  end.
Proof.
  intros Hx Hy Ho. assert (exists t, term_mul_assign x o = on_coeff t (F_mul_assign (coeff t) (match o with Some y => Some (coeff y) | None => None end)) /\
    append_spec x (map snd (factors y)) t) as (t & -> & S).
  { unfold term_mul_assign. destruct Ho as [->|[-> <-]].
    - destruct (appendFactors_ok (map snd (factors y)) x) as (t & E & S); [apply Hx|apply map_ok_factors, Hy|]. rewrite E. cbn [andthen]. eauto.
    - destruct (append_own_ok (Datatypes.S (length (factors x))) 0 x) as (t & E & S); [apply Hx|lia|lia|]. rewrite E. cbn [andthen]. eauto. }
  pose proof (rep_append x c g _ t Hx S) as Rt.
  destruct (on_coeff_mul t x y (match o with Some y => Some (coeff y) | None => None end) (coeff y)) as [H1 H2]; auto.
  { apply S. } { apply Hx. } { apply Hy. } { destruct Ho as [->|[-> <-]]; reflexivity. }
  assert (D : mul_safe x y \/ ~ mul_safe x y).
  { destruct (F_mul_assign_leaves (coeff x) (Some (coeff y))) as [(D & _)|(D & _)]; auto; [apply Hx|intros ? [= <-]; apply Hy]. }
  destruct D as [D|D].
  - destruct (H2 D) as (k & -> & Rk & Vk). cbn [final fst snd bind]. eapply rep_ext; [eapply rep_coeff; [exact Rt|exact Rk|exact Vk]| |].
    + destruct Hx as (_ & -> & _), Hy as (_ & -> & _). reflexivity.
    + intros rho H. destruct Hy as (_ & _ & Gy). rewrite Gy; [reflexivity|auto].
  - specialize (H1 D). unfold final. rewrite H1. exact I.
Qed.
Lemma rep_negate x c g : rep_term x c g ->
  match final (negate_term x) with Ok t => rep_term t (- c) g /\ factors t = factors x | Abort => True | _ => False end.
Proof.
  intros Hx. destruct (negate_term_ok x) as [H1 H2]; [apply Hx|].
  assert (D : norm_safe (val (top (coeff x))) (val (bot (coeff x))) \/ ~ norm_safe (val (top (coeff x))) (val (bot (coeff x)))).
  { destruct (norm_safe_dec (val (top (coeff x))) (val (bot (coeff x)))); auto. }
  destruct D as [D|D].
  - destruct (H2 D) as (k & -> & Rk & Vk). cbn [final fst snd bind]. split; [|reflexivity]. eapply rep_coeff; eauto. rewrite Vk. destruct Hx as (_ & -> & _). reflexivity.
  - unfold final. rewrite (H1 D). exact I.
Qed.
(** adding a term *)
Lemma rep_add p gp x c g : rep_poly p gp -> rep_term x c g ->
  match final (appendTerm p x) with Ok q => rep_poly q (fun rho => gp rho + c * g rho)%Q | UB | Abort => True | _ => False end.
Proof.
  intros Hp Hx. pose proof (appendTerm_cases p x (proj1 Hp) (proj1 Hx)) as A.
  destruct (appendTerm p x) as [q r]. unfold final. cbn [fst snd].
  destruct r as [[]| | | |]; cbn [bind]; auto; try (inversion A; fail).
  destruct (appended_ok p x q (proj1 Hp) (proj1 Hx) A) as [Hq V]. split; auto. intros rho H. rewrite V.
  rewrite (rep_tval x c g rho Hx H). destruct Hp as [_ ->]; [reflexivity|auto].
Qed.
Lemma rep_sum (l : list nat) (t : nat -> Term) (k : nat -> Q) (g : nat -> point -> Q) : (forall a, rep_term (t a) (k a) (g a)) ->
  rep_poly (map t l) (fun rho => Qsum (map (fun a => k a * g a rho)%Q l)).
Proof.
  intros H. split.
  - apply Forall_map, Forall_forall. intros a _. apply H.
  - intros rho N. induction l as [|a l IH]; cbn [map pval fold_right Qsum]; [reflexivity|]. fold (pval rho (map t l)) (Qsum (map (fun a => k a * g a rho)%Q l)).
    rewrite IH, (rep_tval _ _ _ rho (H a) N). reflexivity.
Qed.
Definition fits (c : pcall) (m : meaning) (r : res objects) : Prop :=
  match r with
  | Ok s' => stands s' (means m c)
  | UB => adds c = true
  | Abort => computes c = true
  | _ => False
  end.
Lemma Qprod_fsval rho s m l : (forall a, mF m a = (fid (F s a), val (power (F s a)))) ->
  (fsval rho (map (F s) l) == Qprod (map (fun a => Qpower (rho (fst (mF m a))) (snd (mF m a))) l))%Q.
Proof.
  intros H. induction l as [|a l IH]; cbn [map fsval Qprod fold_right]; [reflexivity|].
  fold (fsval rho (map (F s) l)) (Qprod (map (fun a => Qpower (rho (fst (mF m a))) (snd (mF m a))) l)). rewrite IH, H. reflexivity.
Qed.
Lemma appendTerm_nil x : appendTerm [] x = ([], UB).
Proof. reflexivity. Qed.
Lemma call_fits s m c : stands s m -> args_ok c -> fits c m (run_call s c).
Proof.
  intros St Ha. pose proof St as (HF & HT & HP).
  assert (Fok : forall a, factor_ok (F s a)) by (intros a; apply HF). assert (Fm : forall a, mF m a = (fid (F s a), val (power (F s a)))) by (intros a; apply HF).
  assert (Tr : forall a, rep_term (T s a) (fst (mT m a)) (snd (mT m a))) by exact HT.
  assert (Pr : forall a, rep_poly (P s a) (mP m a)) by exact HP.
  assert (One : forall a, exists t, Term_of_factor (F s a) = Ok t /\ rep_term t 1 (fun rho => Qpower (rho (fst (mF m a))) (snd (mF m a)))).
  { intros a. destruct (Term_of_factor_ok (F s a) (Fok a)) as (t & E & Sg). exists t. split; auto. rewrite Fm. apply rep_single, Sg. }
  assert (App : forall x c g b, rep_term x c g -> exists t, appendFactor x (F s b) false = (t, Ok tt) /\
    rep_term t c (fun rho => g rho * Qpower (rho (fst (mF m b))) (snd (mF m b)))%Q).
  { intros x k g b Hx. destruct (appendFactor_ok x (F s b)) as (t & E & A); [apply Hx|apply Fok|]. exists t. split; auto.
    eapply rep_ext; [eapply rep_append; eauto|reflexivity|]. intros rho _. rewrite Fm. cbn [fsval fold_right fst snd]. unfold fval. ring. }
  destruct c; cbn [run_call args_ok] in *.
  - apply stands_F; auto.
  - apply stands_F; auto.
  - apply stands_F; auto; [exact (Fok f)|]. rewrite Fm. reflexivity.
  - apply stands_F; auto. rewrite Fm. reflexivity.
  - destruct (One f) as (t & -> & R). apply stands_T; auto.
  - destruct (Term_of_ok c (F s f) Ha (Fok f)) as [-> Hx]. apply stands_T; auto. rewrite Fm. apply rep_single. split; [auto|]. split; reflexivity.
  - unfold Term_of_vector. destruct (appendFactors_ok (map (F s) fs) (mkTerm c [])) as (t & E & A); [apply map_ok_nil|apply Forall_map, Forall_forall; auto|].
    rewrite E. apply stands_T; auto. eapply rep_ext; [apply (rep_append (mkTerm c []) (Fval c) (fun _ => 1%Q)); [|exact A]|reflexivity|].
    + split; [split; [exact Ha|apply map_ok_nil]|]. split; reflexivity.
    + intros rho _. cbn beta. rewrite (Qprod_fsval rho s m fs Fm). ring.
  - apply stands_T; auto.
  - unfold factor_mul. destruct (One f) as (t & -> & R). cbn [bind]. destruct (App t _ _ g R) as (u & -> & R2). apply stands_T; auto.
  - unfold term_mul_factor. destruct (App _ _ _ f (Tr t)) as (u & -> & R2). apply stands_T; auto.
  - unfold factor_mul_term, term_mul_factor. destruct (App _ _ _ f (Tr t)) as (u & -> & R2). apply stands_T; auto.
    eapply rep_ext; [exact R2|reflexivity|]. intros rho _. cbn beta. ring.
  - pose proof (rep_mul _ _ (Some (T s u)) _ _ _ _ (Tr t) (Tr u) (or_introl eq_refl)) as H. change (term_mul (T s t) (T s u)) with (final (term_mul_assign (T s t) (Some (T s u)))).
    destruct (final (term_mul_assign (T s t) (Some (T s u)))); try contradiction; [apply stands_T; auto|reflexivity].
  - destruct (App _ _ _ f (Tr t)) as (u & -> & R2). apply stands_T; auto.
  - unfold term_mul_assign_factor. destruct (App _ _ _ f (Tr t)) as (u & -> & R2). apply stands_T; auto.
  - assert (Ho : (if Nat.eqb t u then None else Some (T s u)) = Some (T s u) \/ (if Nat.eqb t u then None else Some (T s u)) = None /\ T s t = T s u).
    { destruct (Nat.eqb_spec t u); subst; auto. }
    pose proof (rep_mul _ _ _ _ _ _ _ (Tr t) (Tr u) Ho) as H.
    destruct (final (term_mul_assign (T s t) (if Nat.eqb t u then None else Some (T s u)))); try contradiction; [apply stands_T; auto|reflexivity].
  - pose proof (rep_negate _ _ _ (Tr t)) as H. destruct (final (negate_term (T s t))); try contradiction; [apply stands_T; tauto|reflexivity].
  - apply stands_T; auto. eapply rep_coeff; eauto. reflexivity.
  - unfold Poly_of_factor. destruct (One f) as (t & -> & R). apply stands_P; auto. split; [constructor; [apply R|constructor]|].
    intros rho H. cbn [pval fold_right]. rewrite (rep_tval _ _ _ rho R H). ring.
  - apply stands_P; auto. split; [constructor; [apply Tr|constructor]|]. intros rho H. cbn [pval fold_right]. rewrite (rep_tval _ _ _ rho (Tr t) H). ring.
  - destruct fs as [|f fs]; [apply stands_P; auto; split; [constructor|reflexivity]|]. unfold Poly_of_factors. cbn [map append_each_factor].
    destruct (One f) as (t & -> & _). cbn [eval]. rewrite appendTerm_nil. reflexivity.
  - destruct ts as [|t ts]; [apply stands_P; auto; split; [constructor|reflexivity]|]. unfold Poly_of_terms. cbn [map append_each]. rewrite appendTerm_nil. reflexivity.
  - apply stands_P; auto.
  - pose proof (rep_add _ _ _ _ _ (Pr p) (Tr t)) as H. destruct (final (appendTerm (P s p) (T s t))); try contradiction; [apply stands_P; auto|reflexivity|reflexivity].
  - pose proof (rep_sum ts (T s) _ _ Tr) as [Hl Vl]. destruct (appendTerms_ok (P s p) (map (T s) ts)) as [A1 A2]; [apply Pr|auto|].
    assert (D : (merge_sorted (P s p) /\ merge_sorted (map (T s) ts)) \/ ~ (merge_sorted (P s p) /\ merge_sorted (map (T s) ts))).
    { destruct (is_sorted_ok (P s p)) as ([|] & _ & D1); [apply Pr| |]; destruct (is_sorted_ok (map (T s) ts) Hl) as ([|] & _ & D2); rewrite <- D1, <- D2; intuition congruence. }
    destruct D as [D|D]; [|rewrite A2 by auto; reflexivity]. destruct (A1 D) as (r & -> & Pm). apply stands_P; auto. split.
    + unfold poly_ok. rewrite <- Pm. apply Forall_app. split; [apply Pr|auto].
    + intros rho H. rewrite <- (pval_perm rho _ _ Pm), pval_app, Vl by auto. destruct (Pr p) as [_ ->]; [reflexivity|auto].
  - destruct (C55_factors_partial (F s f) (F s g) (Fok f) (Fok g)) as [H1 H2].
    assert (D : factor_before (F s f) (F s g) \/ ~ factor_before (F s f) (F s g)).
    { destruct (factor_lt_ok (F s f) (F s g)) as ([|] & _ & D); auto; rewrite <- D; auto. }
    destruct D as [D|D]; [destruct (H1 D) as [-> _]; reflexivity|]. destruct (H2 D) as (x & y & -> & _ & Hx & _ & V). apply stands_P; auto. split; auto.
    intros rho _. rewrite (proj1 (V rho)), !Fm. reflexivity.
  - destruct (C55_factors_partial (F s f) (F s g) (Fok f) (Fok g)) as [H1 H2].
    assert (D : factor_before (F s f) (F s g) \/ ~ factor_before (F s f) (F s g)).
    { destruct (factor_lt_ok (F s f) (F s g)) as ([|] & _ & D); auto; rewrite <- D; auto. }
    destruct D as [D|D]; [destruct (H1 D) as [_ ->]; reflexivity|]. destruct (H2 D) as (x & y & _ & -> & _ & Hx & V). apply stands_P; auto. split; auto.
    intros rho _. rewrite (proj2 (V rho)), !Fm. reflexivity.
  - unfold term_add, Poly_of_term. cbn [bind].
    assert (R : rep_poly [T s t] (fun rho => fst (mT m t) * snd (mT m t) rho)%Q).
    { split; [constructor; [apply Tr|constructor]|]. intros rho H. cbn [pval fold_right]. rewrite (rep_tval _ _ _ rho (Tr t) H). ring. }
    pose proof (rep_add _ _ _ _ _ R (Tr u)) as H. destruct (final (appendTerm [T s t] (T s u))); try contradiction; [apply stands_P; auto|reflexivity|reflexivity].
  - unfold term_sub, Poly_of_term. cbn [bind].
    assert (R : rep_poly [T s t] (fun rho => fst (mT m t) * snd (mT m t) rho)%Q).
    { split; [constructor; [apply Tr|constructor]|]. intros rho H. cbn [pval fold_right]. rewrite (rep_tval _ _ _ rho (Tr t) H). ring. }
    pose proof (rep_negate _ _ _ (Tr u)) as N. destruct (final (negate_term (T s u))) as [v| | | |]; try contradiction; [|reflexivity]. cbn [bind].
    destruct N as [N _].
    pose proof (rep_add _ _ _ _ _ R N) as H. destruct (final (appendTerm [T s t] v)); try contradiction; [|reflexivity|reflexivity].
    apply stands_P; auto. eapply rep_poly_ext; [exact H|]. intros rho _. cbn beta. ring.
  - unfold poly_add_assign. destruct (One f) as (t & -> & R). cbn [eval]. pose proof (rep_add _ _ _ _ _ (Pr p) R) as H.
    destruct (final (appendTerm (P s p) t)); try contradiction; [|reflexivity|reflexivity].
    apply stands_P; auto. eapply rep_poly_ext; [exact H|]. intros rho _. cbn beta. ring.
  - unfold poly_sub_assign. destruct (minus_factor_ok (F s f) (Fok f)) as (t & -> & Sg). cbn [eval]. pose proof (rep_add _ _ _ _ _ (Pr p) (rep_single _ _ _ Sg)) as H.
    destruct (final (appendTerm (P s p) t)); try contradiction; [|reflexivity|reflexivity].
    apply stands_P; auto. eapply rep_poly_ext; [exact H|]. intros rho _. cbn beta. rewrite Fm. cbn [fst snd]. ring.
Qed.
Lemma calls_fit l : forall s m, stands s m -> Forall args_ok l ->
  match run_calls s l with
  | Ok s' => stands s' (means_all m l)
  | UB => exists c, In c l /\ adds c = true
  | Abort => exists c, In c l /\ computes c = true
  | _ => False
  end.
Proof.
  induction l as [|c l IH]; intros s m St Ha; cbn [run_calls means_all fold_left]; [exact St|]. inversion Ha as [|? ? Hc Hl]; subst.
  pose proof (call_fits s m c St Hc) as H. destruct (run_call s c) as [s'| | | |]; cbn [bind fits] in *; try contradiction; eauto using in_eq.
  specialize (IH s' (means m c) H Hl). fold (means_all (means m c) l). destruct (run_calls s' l); auto; destruct IH as (c' & I & E); exists c'; split; auto using in_cons.
Qed.
