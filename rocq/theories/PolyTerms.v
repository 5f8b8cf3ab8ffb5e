(** Terms: products, comparison. *)
From Coq Require Import Ascii QArith Qpower Sorted List.
From Verif Require Import Base IntModel IntSpec IntBasics IntAddSub FracModel FracSpec FracProofs IOModel
  ElemModel ElemSpec ElemProofs PolyModel PolySpec PolyProofs.
From Verif Require PropsFrac.
Local Open Scope Z_scope.
Local Open Scope list_scope.

(** *** A term is determined by its names and exponents *)
Lemma degree_ne f k : fid f <> k -> degree f k = 0.
Proof. intros H. unfold degree. destruct (list_eq_dec _ _ _); congruence. Qed.
Lemma degree_eq f : degree f (fid f) = val (power f).
Proof. unfold degree. destruct (list_eq_dec _ _ _); congruence. Qed.
Lemma total_cons f l k : total (f :: l) k = degree f k + total l k.
Proof. reflexivity. Qed.
Lemma total_notin m k : map_ok m -> ~ In k (map fst m) -> total (map snd m) k = 0.
Proof.
  induction m as [|[k' f] m IH]; intros Hm N; [reflexivity|]. apply map_ok_cons in Hm as (H1 & _ & _ & H4).
  cbn [map snd fst In] in *. rewrite total_cons, IH by tauto. rewrite degree_ne; [lia|]. rewrite H1. tauto.
Qed.
Lemma map_unique m : forall m', map_ok m -> map_ok m' -> (forall k, In k (map fst m) <-> In k (map fst m')) ->
  (forall k, total (map snd m) k = total (map snd m') k) -> m = m'.
Proof.
  induction m as [|[k f] m IH]; intros [|[k' f'] m'] Hm Hm' HI HT.
  - reflexivity.
  - exfalso. apply (HI k'). left; reflexivity.
  - exfalso. apply (HI k). left; reflexivity.
  - pose proof Hm as Hm0. pose proof Hm' as Hm0'.
    apply map_ok_cons in Hm as (H1 & H2 & H3 & H4). apply map_ok_cons in Hm' as (H1' & H2' & H3' & H4').
    cbn [map fst] in HI.
    assert (k = k') as <-.
    { assert (I1 : In k (k' :: map fst m')) by (apply HI; left; auto).
      assert (I2 : In k' (k :: map fst m)) by (apply HI; left; auto).
      destruct I1 as [->|I1]; auto. destruct I2 as [->|I2]; auto. rewrite Forall_forall in H3, H3'.
      exfalso. apply (str_irrefl k). eapply str_trans; [apply H3, I2|apply H3', I1]. }
    assert (f = f') as <-.
    { pose proof (HT k) as E. cbn [map snd] in E. rewrite !total_cons in E.
      rewrite (total_notin m), (total_notin m') in E; auto using not_In_before.
      rewrite <- H1 in E at 1. rewrite <- H1' in E. rewrite !degree_eq in E.
      destruct f as [a p], f' as [a' p']. cbn [fid power] in *. subst a a'. f_equal. apply canonical_unique_lemma; auto. lia. }
    f_equal. apply IH; auto.
    + intros s. pose proof (HI s) as Hs. cbn [In] in Hs. split; intros Is.
      * destruct Hs as [Hs _]. destruct (Hs (or_intror Is)) as [E|]; auto. subst s. destruct (not_In_before _ _ H3 Is).
      * destruct Hs as [_ Hs]. destruct (Hs (or_intror Is)) as [E|]; auto. subst s. destruct (not_In_before _ _ H3' Is).
    + intros s. specialize (HT s). cbn [map snd] in HT. rewrite !total_cons in HT. lia.
Qed.
Lemma factors_unique x y : map_ok (factors x) -> map_ok (factors y) ->
  (factors x = factors y <-> (forall k, occurs x k <-> occurs y k) /\ (forall k, exponent x k = exponent y k)).
Proof.
  intros Hx Hy. split.
  - intros E. unfold occurs, exponent. rewrite E. split; reflexivity.
  - intros [H1 H2]. apply map_unique; auto.
Qed.

(** *** Multiplication *)
Lemma append_times x f t : term_ok x -> append_spec x [f] t -> times_factor x f t.
Proof.
  intros [Rx Mx] (A1 & A2 & A3 & A4 & A5). unfold times_factor. splits; auto.
  - split; [rewrite A1|]; auto.
  - intros k. rewrite A3. rewrite total_cons. cbn. lia.
  - intros k. rewrite A4. split; [intros [?|(g & [<-|[]] & E)]; auto|]. intros [?|E]; auto. right. exists f. split; [left|]; auto.
  - intros rho H1 H2. destruct (A5 rho H1 H2) as [_ E]. unfold tval. rewrite A1, E. cbn [fsval fold_right]. ring.
Qed.
Lemma term_mul_factor_ok x f : term_ok x -> factor_ok f ->
  exists t, term_mul_factor x f = Ok t /\ term_mul_assign_factor x f = (t, Ok tt) /\ times_factor x f t.
Proof.
  intros Hx Hf. unfold term_mul_factor, term_mul_assign_factor.
  destruct (appendFactor_ok x f) as (t & E & S); auto; [apply Hx|]. rewrite E. exists t. splits; auto. apply append_times; auto.
Qed.
Lemma Term_of_ok c f : reduced c -> factor_ok f ->
  Term_of c f = Ok (mkTerm c [(fid f, f)]) /\ term_ok (mkTerm c [(fid f, f)]).
Proof.
  intros Rc Hf. split; [reflexivity|]. split; auto. cbn [factors]. apply map_ok_cons. splits; auto using map_ok_nil. constructor.
Qed.
Lemma Frac_of_int_ok k : INT32_MIN <= k <= INT32_MAX -> exists c, Frac_of_int k = Ok c /\ reduced c /\ (Fval c == inject_Z k)%Q.
Proof. intros H. destruct (PropsFrac.C32_of_int k H) as (f & E & R & V). eauto. Qed.
Lemma Term_of_factor_ok f : factor_ok f -> exists t, Term_of_factor f = Ok t /\ single 1 f t.
Proof.
  intros Hf. unfold Term_of_factor. destruct (Frac_of_int_ok 1) as (c & -> & Rc & Vc); [cbv; split; discriminate|]. cbn [bind].
  change (final (appendFactor (mkTerm c []) f false)) with (Term_of c f).
  destruct (Term_of_ok c f Rc Hf) as [-> Ht]. eexists. split; [reflexivity|]. unfold single. auto.
Qed.
Lemma Term_of_vector_ok c l : reduced c -> Forall factor_ok l -> exists t, Term_of_vector c l = Ok t /\
  term_ok t /\ coeff t = c /\ (forall k, exponent t k = total l k) /\ (forall k, occurs t k <-> exists f, In f l /\ fid f = k) /\
  (forall rho, meaningful rho l -> (tval rho t == Fval c * fsval rho l)%Q).
Proof.
  intros Rc Hl. unfold Term_of_vector. destruct (appendFactors_ok l (mkTerm c [])) as (t & E & A1 & A2 & A3 & A4 & A5); auto using map_ok_nil.
  rewrite E. exists t. cbn [coeff factors] in *. splits; auto.
  - split; [rewrite A1|]; auto.
  - intros k. rewrite A4. unfold occurs. cbn. tauto.
  - intros rho H. destruct (A5 rho) as [_ V]; auto; [constructor|]. unfold tval. rewrite A1, V. cbn [map fsval fold_right]. ring.
Qed.

Lemma on_coeff_mul t x y o q : coeff t = coeff x -> reduced (coeff x) -> reduced q -> rd (coeff x) o = q -> q = coeff y ->
  (~ mul_safe x y -> snd (on_coeff t (F_mul_assign (coeff t) o)) = Abort) /\
  (mul_safe x y -> exists c, on_coeff t (F_mul_assign (coeff t) o) = (mkTerm c (factors t), Ok tt) /\ reduced c /\
    (Fval c == Fval (coeff x) * Fval (coeff y))%Q).
Proof.
  intros Et Rx Rq Eo Ey. rewrite Ey in *. clear q Ey. rewrite Et.
  assert (Ro : forall g, o = Some g -> reduced g). { intros g ->. cbn in Eo. rewrite Eo. exact Rq. }
  pose proof (F_mul_assign_leaves (coeff x) o Rx Ro) as H. rewrite Eo in H. unfold mul_safe. destruct H as [(S & f & E & R & V)|(S & E)].
  - split; [tauto|]. intros _. exists f. unfold on_coeff. rewrite E. cbn [fst snd]. splits; auto. rewrite V. unfold Fval.
    rewrite ratio_mul by (apply Z.neq_sym, Z.lt_neq; (apply Rx || apply Rq)). reflexivity.
  - split; [|tauto]. intros _. exact E.
Qed.
Lemma product_spec x y t c : term_ok x -> term_ok y -> append_spec x (map snd (factors y)) t -> reduced c ->
  (Fval c == Fval (coeff x) * Fval (coeff y))%Q -> product_of x y (mkTerm c (factors t)).
Proof.
  intros Hx Hy (A1 & A2 & A3 & A4 & A5) Rc Vc. unfold product_of. cbn [coeff factors]. splits; auto.
  - split; auto.
  - intros k. unfold occurs in *. cbn [factors]. rewrite A4. split.
    + intros [?|(f & I & <-)]; auto. right. apply in_map_iff in I as ([k' f'] & E & I). cbn in E. subst f'.
      destruct Hy as [_ [_ Hy]]. rewrite Forall_forall in Hy. destruct (Hy _ I) as [E _]. cbn [fst snd] in E. rewrite E. apply (in_map fst) in I. exact I.
    + intros [?|I]; auto. right. apply in_map_iff in I as ([k' f'] & E & I). cbn in E. subst k'. exists f'. split; [apply (in_map snd) in I; exact I|].
      destruct Hy as [_ [_ Hy]]. rewrite Forall_forall in Hy. apply (Hy _ I).
  - intros rho H1 H2. destruct (A5 rho H1 H2) as [_ V]. unfold tval. cbn [coeff factors]. rewrite Vc, V. ring.
Qed.
Lemma term_mul_ok x y : term_ok x -> term_ok y ->
  (~ mul_safe x y -> term_mul x y = Abort /\ snd (term_mul_assign x (Some y)) = Abort) /\
  (mul_safe x y -> exists t, term_mul x y = Ok t /\ term_mul_assign x (Some y) = (t, Ok tt) /\ product_of x y t).
Proof.
  intros Hx Hy. unfold term_mul, term_mul_assign.
  destruct (appendFactors_ok (map snd (factors y)) x) as (t & E & S); [apply Hx|apply map_ok_factors, Hy|]. rewrite E. cbn [andthen].
  destruct (on_coeff_mul t x y (Some (coeff y)) (coeff y)) as [H1 H2]; auto; [apply S|apply Hx|apply Hy|]. split.
  - intros N. specialize (H1 N). unfold final. rewrite H1. auto.
  - intros Y. destruct (H2 Y) as (c & E2 & Rc & Vc). rewrite E2. eexists. splits; [reflexivity|reflexivity|]. apply product_spec; auto.
Qed.
Lemma term_square_ok x : term_ok x ->
  (~ mul_safe x x -> snd (term_mul_assign x None) = Abort) /\
  (mul_safe x x -> exists t, term_mul_assign x None = (t, Ok tt) /\ product_of x x t).
Proof.
  intros Hx. unfold term_mul_assign.
  destruct (append_own_ok (S (length (factors x))) 0 x) as (t & E & S); [apply Hx|lia|lia|]. rewrite E. cbn [andthen].
  destruct (on_coeff_mul t x x None (coeff x)) as [H1 H2]; auto; try apply Hx; [apply S|]. split; auto.
  intros Y. destruct (H2 Y) as (c & E2 & Rc & Vc). rewrite E2. eexists. split; [reflexivity|]. apply product_spec; auto.
Qed.
Lemma factor_mul_ok f g : factor_ok f -> factor_ok g -> exists t u, factor_mul f g = Ok t /\ single 1 f u /\ times_factor u g t.
Proof.
  intros Hf Hg. unfold factor_mul. destruct (Term_of_factor_ok f Hf) as (u & -> & Su). cbn [bind].
  destruct (term_mul_factor_ok u g) as (t & E & _ & H); auto; [apply Su|]. exists t, u. auto.
Qed.
(** two products of the same factors are the same object *)
Lemma product_unique x y t t' : product_of x y t -> product_of y x t' -> t = t'.
Proof.
  intros ((R & M) & V & Ex & Oc & _) ((R' & M') & V' & Ex' & Oc' & _). destruct t as [c m], t' as [c' m']. f_equal.
  - apply reduced_unique; auto. cbn [coeff] in *. rewrite V, V'. ring.
  - apply map_unique; auto; intros k.
    + unfold occurs in *. cbn [factors] in *. rewrite Oc, Oc'. tauto.
    + unfold exponent in *. cbn [factors] in *. rewrite Ex, Ex'. lia.
Qed.
(** negation normalises the coefficient again, and may abort as Frac's constructor does *)
Lemma negate_term_ok t : term_ok t ->
  (~ norm_safe (val (top (coeff t))) (val (bot (coeff t))) -> snd (negate_term t) = Abort) /\
  (norm_safe (val (top (coeff t))) (val (bot (coeff t))) -> exists c, negate_term t = (mkTerm c (factors t), Ok tt) /\ reduced c /\
    (Fval c == - Fval (coeff t))%Q).
Proof.
  intros [Rt Mt]. unfold negate_term. destruct (Int_of_int64_ok (-1) 0) as (m & E & Cm & Vm); [cbv; split; [reflexivity|discriminate]|].
  rewrite E. cbn [eval]. assert (C : canonical m) by apply Vm. assert (V : val m = -1) by (rewrite Cm; reflexivity).
  assert (H : leaves (FI_mul_assign (coeff t) m) (val m * val (top (coeff t))) (val (bot (coeff t)))).
  { apply (FI_mul_assign_leaves (coeff t) None m); auto. discriminate. } rewrite V in H.
  assert (Hs : norm_safe (-1 * val (top (coeff t))) (val (bot (coeff t))) <-> norm_safe (val (top (coeff t))) (val (bot (coeff t)))).
  { split; apply norm_safe_abs; lia. }
  unfold leaves in H. rewrite Hs in H. destruct H as [(S & f & E2 & R & V2)|(S & E2)].
  - split; [tauto|]. intros _. exists f. unfold on_coeff. rewrite E2. cbn [fst snd]. splits; auto. rewrite V2. unfold Fval.
    unfold ratio. rewrite inject_Z_mult. change (inject_Z (-1)) with (-(1))%Q. field. apply inject_nz. apply Z.neq_sym, Z.lt_neq. apply Rt.
  - split; [|tauto]. intros _. exact E2.
Qed.

(** *** The order of factors *)
Lemma factor_irrefl f : ~ factor_before f f.
Proof. intros [H|[_ H]]; [eapply str_irrefl; eauto|lia]. Qed.
Lemma factor_trans f g h : factor_before f g -> factor_before g h -> factor_before f h.
Proof.
  unfold factor_before. intros [H1|[H1 H1']] [H2|[H2 H2']].
  - left. eapply str_trans; eauto.
  - left. rewrite <- H2. auto.
  - left. rewrite H1. auto.
  - right. split; [congruence|lia].
Qed.
Lemma factor_total f g : factor_ok f -> factor_ok g -> factor_before f g \/ f = g \/ factor_before g f.
Proof.
  intros Hf Hg. unfold factor_before. destruct (str_total (fid f) (fid g)) as [H|[H|H]]; auto.
  destruct (Z.lt_trichotomy (val (power f)) (val (power g))) as [L|[L|L]]; auto.
  right; left. destruct f as [kf pf], g as [kg pg]. cbn [fid power] in *. f_equal; auto. apply canonical_unique_lemma; auto.
Qed.
Lemma factor_lt_ok f g : factor_ok f -> factor_ok g -> exists b, factor_lt f g = Ok b /\ (b = true <-> factor_before f g).
Proof.
  intros Hf Hg. unfold factor_lt. destruct (str_lt (fid f) (fid g)) eqn:E1.
  - exists true. split; auto. apply str_lt_spec in E1. unfold factor_before. tauto.
  - assert (N : ~ str_before (fid f) (fid g)) by (rewrite <- str_lt_spec; congruence). unfold factor_before.
    destruct (str_eq (fid f) (fid g)) eqn:E2.
    + apply str_eq_spec in E2. rewrite op_lt_spec by auto using canonical_wf. eexists. split; [reflexivity|]. rewrite Z.ltb_lt. tauto.
    + exists false. split; auto. split; [discriminate|]. intros [H|[H _]]; [tauto|]. apply str_eq_spec in H. congruence.
Qed.
Lemma factor_eq_ok f g : factor_ok f -> factor_ok g -> exists b, factor_eq f g = Ok b /\ (b = true <-> f = g).
Proof.
  intros Hf Hg. unfold factor_eq. destruct (str_eq (fid f) (fid g)) eqn:E2.
  - apply str_eq_spec in E2. rewrite op_eq_spec by auto using canonical_wf. eexists. split; [reflexivity|]. rewrite Z.eqb_eq.
    split; [|congruence]. intros V. destruct f as [kf pf], g as [kg pg]. cbn [fid power] in *. f_equal; auto. apply canonical_unique_lemma; auto.
  - exists false. split; auto. split; [discriminate|]. intros ->. assert (str_eq (fid g) (fid g) = true) by (apply str_eq_spec; auto). congruence.
Qed.
Lemma factor_ne_ok f g : factor_ok f -> factor_ok g -> exists b, factor_ne f g = Ok b /\ (b = true <-> f <> g).
Proof.
  intros Hf Hg. unfold factor_ne. destruct (factor_eq_ok f g Hf Hg) as (b & -> & Hb). exists (negb b). split; auto.
  rewrite <- Hb. destruct b; cbn; intuition congruence.
Qed.

(** *** The order of terms *)
Lemma any_less_ok xs : forall ys, Forall factor_ok (map snd xs) -> Forall factor_ok (map snd ys) -> exists b, any_less xs ys = Ok b /\
  (b = true <-> exists i f g, nth_error (map snd xs) i = Some f /\ nth_error (map snd ys) i = Some g /\ factor_before f g).
Proof.
  induction xs as [|[k x] xs IH]; intros [|[k' y] ys] Hx Hy; cbn [any_less map snd].
  - exists false. split; auto. split; [discriminate|]. intros ([|i] & f & g & E & _); discriminate.
  - exists false. split; auto. split; [discriminate|]. intros ([|i] & f & g & E & _); discriminate.
  - exists false. split; auto. split; [discriminate|]. intros ([|i] & f & g & _ & E & _); discriminate.
  - inversion Hx; subst. inversion Hy; subst. destruct (factor_lt_ok x y) as (b & -> & Hb); auto. cbn [bind]. destruct b.
    + exists true. split; auto. split; auto. intros _. exists 0%nat, x, y. splits; auto. apply Hb; auto.
    + destruct (IH ys) as (b & -> & Hb2); auto. exists b. split; auto. rewrite Hb2. split.
      * intros (i & f & g & H). exists (S i), f, g. exact H.
      * intros ([|i] & f & g & E1 & E2 & H); [|exists i, f, g; auto]. cbn in E1, E2. injection E1 as <-. injection E2 as <-. apply Hb in H. discriminate.
Qed.
Lemma term_lt_ok x y : map_ok (factors x) -> map_ok (factors y) -> exists b, term_lt x y = Ok b /\ (b = true <-> term_before x y).
Proof.
  intros Hx Hy. unfold term_lt, term_before. destruct (Nat.ltb_spec (length (factors x)) (length (factors y))) as [L|L].
  - exists true. split; auto. tauto.
  - destruct (any_less_ok (factors x) (factors y)) as (b & -> & Hb); auto using map_ok_factors. exists b. split; auto. rewrite Hb.
    split; auto. intros [?|?]; auto. lia.
Qed.
Lemma all_equal_ok xs : forall ys, map_ok xs -> map_ok ys -> length xs = length ys -> exists b, all_equal xs ys = Ok b /\ (b = true <-> xs = ys).
Proof.
  induction xs as [|[k x] xs IH]; intros [|[k' y] ys] Hx Hy; cbn [all_equal length]; try discriminate.
  - exists true. tauto.
  - intros [= L]. apply map_ok_cons in Hx as (H1 & H2 & _ & H3). apply map_ok_cons in Hy as (H1' & H2' & _ & H3').
    destruct (factor_ne_ok x y H2 H2') as (b & -> & Hb). cbn [bind]. destruct b.
    + exists false. split; auto. split; [discriminate|]. intros [= _ E _]. destruct (proj1 Hb eq_refl E).
    + assert (x = y) as <-. { destruct (factor_eq_ok x y H2 H2') as (b & _ & Hb2). destruct (factor_total x y H2 H2') as [F|[F|F]]; auto;
        exfalso; assert (x <> y) as N by (intros ->; eapply factor_irrefl; eauto); apply Hb in N; discriminate. }
      destruct (IH ys H3 H3' L) as (b & -> & Hb2). exists b. split; auto. rewrite Hb2. split; [intros ->; congruence|congruence].
Qed.
Lemma term_eq_ok x y : map_ok (factors x) -> map_ok (factors y) -> exists b, term_eq x y = Ok b /\ (b = true <-> factors x = factors y).
Proof.
  intros Hx Hy. unfold term_eq. destruct (Nat.eqb_spec (length (factors x)) (length (factors y))) as [L|L]; cbn [negb].
  - apply all_equal_ok; auto.
  - exists false. split; auto. split; [discriminate|]. intros E. rewrite E in L. contradiction.
Qed.
Lemma term_before_dec x y : map_ok (factors x) -> map_ok (factors y) -> term_before x y \/ ~ term_before x y.
Proof. intros Hx Hy. destruct (term_lt_ok x y Hx Hy) as ([|] & _ & Hb); [left; apply Hb; auto|right; rewrite <- Hb; discriminate]. Qed.
Lemma term_irrefl x : ~ term_before x x.
Proof. intros [H|(i & f & g & E1 & E2 & H)]; [lia|]. rewrite E1 in E2. injection E2 as <-. eapply factor_irrefl; eauto. Qed.
Lemma nth_map_ok m i f : map_ok m -> nth_error (map snd m) i = Some f -> factor_ok f.
Proof. intros H E. apply map_ok_factors in H. rewrite Forall_forall in H. apply H. eapply nth_error_In; eauto. Qed.
(** not being before is transitive *)
Lemma not_before_trans x y z : map_ok (factors x) -> map_ok (factors y) -> map_ok (factors z) ->
  ~ term_before x y -> ~ term_before y z -> ~ term_before x z.
Proof.
  intros Hx Hy Hz N1 N2 [L|(i & f & h & E1 & E2 & H)].
  - destruct (Nat.lt_ge_cases (length (factors x)) (length (factors y))); [apply N1; left; auto|].
    apply N2. left. lia.
  - assert (Hi : (i < length (factors y))%nat).
    { destruct (Nat.lt_ge_cases (length (factors y)) (length (factors z))); [exfalso; apply N2; left; auto|].
      assert (i < length (map snd (factors z)))%nat by (apply nth_error_Some; congruence). rewrite map_length in *. lia. }
    destruct (nth_error (map snd (factors y)) i) as [g|] eqn:E3; [|apply nth_error_None in E3; rewrite map_length in E3; lia].
    assert (Hf := nth_map_ok _ _ _ Hx E1). assert (Hg := nth_map_ok _ _ _ Hy E3). assert (Hh := nth_map_ok _ _ _ Hz E2).
    assert (~ factor_before f g) by (intros B; apply N1; right; eauto 8).
    assert (~ factor_before g h) by (intros B; apply N2; right; eauto 8).
    destruct (factor_total f g Hf Hg) as [?|[->|G]]; auto.
    apply H1. eapply factor_trans; eauto.
Qed.
(** terms neither of which is before the other have the same factors *)
Lemma neither_before x y : map_ok (factors x) -> map_ok (factors y) -> ~ term_before x y -> ~ term_before y x -> factors x = factors y.
Proof.
  intros Hx Hy N1 N2. assert (L : length (factors x) = length (factors y)).
  { destruct (Nat.lt_trichotomy (length (factors x)) (length (factors y))) as [H|[H|H]]; auto; exfalso; [apply N1|apply N2]; left; auto. }
  assert (M : forall i f g, nth_error (map snd (factors x)) i = Some f -> nth_error (map snd (factors y)) i = Some g -> f = g).
  { intros i f g E1 E2. destruct (factor_total f g) as [B|[B|B]]; eauto using nth_map_ok; exfalso; [apply N1|apply N2]; right; eauto 8. }
  clear N1 N2. revert L M Hx Hy. generalize (factors x) (factors y). clear x y. intros m. induction m as [|[k f] m IH]; intros [|[k' f'] m'] L M Hx Hy; cbn in L; try lia; auto.
  apply map_ok_cons in Hx as (H1 & H2 & _ & H3). apply map_ok_cons in Hy as (H1' & H2' & _ & H3').
  assert (f = f') as <- by (apply (M 0%nat); auto). subst k k'. f_equal. apply IH; auto.
  intros i g h E1 E2. apply (M (S i)); auto.
Qed.
