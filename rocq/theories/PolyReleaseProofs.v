(** Poly.hpp compiled without assertions: proofs. *)
From Coq Require Import Ascii String QArith List.
From Verif Require Import Base IntModel IntSpec IntBasics IntAddSub FracModel FracSpec FracProofs IOModel ElemModel ElemSpec ElemProofs
  PolyModel PolySpec PolyProofs PolyTerms PolyPoly ReleaseModel ReleaseSpec ReleaseProofs ReleaseProofs2 FracReleaseModel FracReleaseSpec FracReleaseProofs PropsFracRelease PolyReleaseModel PolyReleaseSpec.
Local Open Scope Z_scope.
Local Open Scope list_scope.

(** *** What is returned with assertions is returned without them *)
Definition okeeps {S} (p p' : outcome S) : Prop := forall s, p = (s, Ok tt) -> p' = (s, Ok tt).
Lemma okeeps_refl {S} (p : outcome S) : okeeps p p. Proof. intros s E. exact E. Qed.
Lemma okeeps_then {S} (p p' : outcome S) k k' : okeeps p p' -> (forall s, okeeps (k s) (k' s)) -> okeeps (andthen p k) (andthen p' k').
Proof.
  intros H K t E. destruct p as [s [[]|e| | |]]; cbn [andthen] in E; try discriminate. rewrite (H s eq_refl). cbn [andthen]. apply K, E.
Qed.
Lemma okeeps_eval {S A} (s : S) (m m' : res A) k k' : keeps m m' -> (forall a, okeeps (k a) (k' a)) -> okeeps (eval s m k) (eval s m' k').
Proof. intros H K t E. destruct m as [a|e| | |]; cbn [eval] in E; try discriminate. rewrite (H a eq_refl). cbn [eval]. apply K, E. Qed.
Lemma okeeps_final {S} (p p' : outcome S) : okeeps p p' -> keeps (final p) (final p').
Proof.
  intros H s E. destruct p as [t [[]|e| | |]]; cbn in E; try discriminate. rewrite (H t eq_refl). exact E.
Qed.
Lemma on_coeff_keeps t p p' : fkeeps p p' -> okeeps (on_coeff t p) (on_coeff t p').
Proof.
  intros H u E. destruct p as [f r]. unfold on_coeff in E. cbn [fst snd] in E. assert (r = Ok tt) by congruence. subst r.
  rewrite (H f eq_refl). exact E.
Qed.
Lemma appendFactor_keeps t x s : okeeps (appendFactor t x s) (appendFactor_nd t x s).
Proof.
  unfold appendFactor, appendFactor_nd. destruct (map_find _ _) as [i|]; [|apply okeeps_refl].
  apply okeeps_eval; [apply keeps_refl|]. intros e. apply okeeps_eval; [apply add_assign_keeps|]. intros p. apply okeeps_refl.
Qed.
Lemma appendFactors_keeps l : forall t, okeeps (appendFactors t l) (appendFactors_nd t l).
Proof. induction l as [|x l IH]; intros t; cbn [appendFactors appendFactors_nd]; [apply okeeps_refl|]. apply okeeps_then; [apply appendFactor_keeps|exact IH]. Qed.
Lemma append_own_keeps n : forall i t, okeeps (append_own n i t) (append_own_nd n i t).
Proof.
  induction n as [|n IH]; intros i t; cbn [append_own append_own_nd]; [apply okeeps_refl|].
  destruct (nth_error _ _); [|apply okeeps_refl]. apply okeeps_then; [apply appendFactor_keeps|]. intros s. apply IH.
Qed.
Lemma Term_of_factor_keeps x : keeps (Term_of_factor x) (Term_of_factor_nd x).
Proof. apply keeps_bind; [apply keeps_refl|]. intros c. apply okeeps_final, appendFactor_keeps. Qed.
Lemma Term_of_keeps c x : keeps (Term_of c x) (Term_of_nd c x).
Proof. apply okeeps_final, appendFactor_keeps. Qed.
Lemma Term_of_vector_keeps c l : keeps (Term_of_vector c l) (Term_of_vector_nd c l).
Proof. apply okeeps_final, appendFactors_keeps. Qed.
Lemma negate_term_keeps t : okeeps (negate_term t) (negate_term_nd t).
Proof. apply okeeps_eval; [apply keeps_refl|]. intros m. apply on_coeff_keeps, FI_mul_fkeeps. Qed.
Lemma factor_mul_keeps x y : keeps (factor_mul x y) (factor_mul_nd x y).
Proof. apply keeps_bind; [apply Term_of_factor_keeps|]. intros t. apply okeeps_final, appendFactor_keeps. Qed.
Lemma term_mul_factor_keeps x y : keeps (term_mul_factor x y) (term_mul_factor_nd x y).
Proof. apply okeeps_final, appendFactor_keeps. Qed.
Lemma term_mul_assign_keeps x y : okeeps (term_mul_assign x y) (term_mul_assign_nd x y).
Proof.
  destruct y as [y|]; cbn [term_mul_assign term_mul_assign_nd]; (apply okeeps_then; [apply appendFactors_keeps||apply append_own_keeps|]);
    intros t; apply on_coeff_keeps, F_mul_fkeeps.
Qed.
Lemma term_mul_keeps x y : keeps (term_mul x y) (term_mul_nd x y).
Proof. apply okeeps_final, (term_mul_assign_keeps x (Some y)). Qed.
Lemma appendTerm_keeps p x : okeeps (appendTerm p x) (appendTerm_nd p x).
Proof.
  apply okeeps_eval; [apply keeps_refl|]. intros [a b]. cbn [fst snd]. destruct b as [|t b]; [apply okeeps_refl|].
  apply okeeps_eval; [apply keeps_refl|]. intros [|]; [|apply okeeps_refl].
  intros q E. pose proof (on_coeff_keeps t _ _ (addsub_fkeeps op_add op_add_nd (coeff t) (Some (coeff x)) op_add_keeps)) as H.
  change (F_addsub_assign op_add (coeff t) (Some (coeff x))) with (F_add_assign (coeff t) (Some (coeff x))) in H.
  destruct (on_coeff t (F_add_assign (coeff t) (Some (coeff x)))) as [t' r]. assert (r = Ok tt) by congruence. subst r.
  specialize (H t' eq_refl). unfold F_add_assign_nd. rewrite H. exact E.
Qed.
Lemma Poly_of_factor_keeps x : keeps (Poly_of_factor x) (Poly_of_factor_nd x).
Proof. apply keeps_bind; [apply Term_of_factor_keeps|]. intros t. apply keeps_refl. Qed.
Lemma append_each_keeps l : forall p, okeeps (append_each p l) (append_each_nd p l).
Proof. induction l as [|x l IH]; intros p; cbn [append_each append_each_nd]; [apply okeeps_refl|]. apply okeeps_then; [apply appendTerm_keeps|exact IH]. Qed.
Lemma append_each_factor_keeps l : forall p, okeeps (append_each_factor p l) (append_each_factor_nd p l).
Proof.
  induction l as [|x l IH]; intros p; cbn [append_each_factor append_each_factor_nd]; [apply okeeps_refl|].
  apply okeeps_eval; [apply Term_of_factor_keeps|]. intros t. apply okeeps_then; [apply appendTerm_keeps|exact IH].
Qed.
Lemma minus_factor_keeps x : keeps (minus_factor x) (minus_factor_nd x).
Proof. apply keeps_bind; [apply keeps_refl|]. intros c. apply Term_of_keeps. Qed.
Lemma factor_add_keeps x y : keeps (factor_add x y) (factor_add_nd x y).
Proof.
  apply keeps_bind; [apply Term_of_factor_keeps|]. intros t. apply keeps_bind; [apply keeps_refl|]. intros p.
  apply keeps_bind; [apply Term_of_factor_keeps|]. intros u. apply okeeps_final, appendTerm_keeps.
Qed.
Lemma factor_sub_keeps x y : keeps (factor_sub x y) (factor_sub_nd x y).
Proof.
  apply keeps_bind; [apply Poly_of_factor_keeps|]. intros p. apply keeps_bind; [apply minus_factor_keeps|]. intros u. apply okeeps_final, appendTerm_keeps.
Qed.
Lemma term_add_keeps x y : keeps (term_add x y) (term_add_nd x y).
Proof. apply keeps_bind; [apply keeps_refl|]. intros p. apply okeeps_final, appendTerm_keeps. Qed.
Lemma term_sub_keeps x y : keeps (term_sub x y) (term_sub_nd x y).
Proof.
  apply keeps_bind; [apply keeps_refl|]. intros p. apply keeps_bind; [apply okeeps_final, negate_term_keeps|]. intros t. apply okeeps_final, appendTerm_keeps.
Qed.
Lemma poly_add_assign_keeps p y : okeeps (poly_add_assign p y) (poly_add_assign_nd p y).
Proof. apply okeeps_eval; [apply Term_of_factor_keeps|]. intros t. apply appendTerm_keeps. Qed.
Lemma poly_sub_assign_keeps p y : okeeps (poly_sub_assign p y) (poly_sub_assign_nd p y).
Proof. apply okeeps_eval; [apply minus_factor_keeps|]. intros t. apply appendTerm_keeps. Qed.

(** *** Exponents never stop the program *)
Lemma appendFactor_eq t x s : map_ok (factors t) -> factor_ok x -> appendFactor_nd t x s = appendFactor t x s.
Proof.
  intros Hm Hx. assert (E : exists t', appendFactor t x s = (t', Ok tt)).
  { destruct s; [|destruct (appendFactor_ok t x Hm Hx) as (t' & E & _); eauto].
    unfold appendFactor. destruct (map_find (factors t) (fid x)) as [i|] eqn:E; [|unfold done; eauto].
    destruct (map_find_Some _ _ _ E) as (f & Hf). unfold get_at. rewrite Hf. cbn [eval snd fst]. destruct (map_ok_nth _ _ _ Hm Hf) as [_ Hok]. cbn in Hok.
    replace (add_assign (power f) None) with (add_assign (power f) (Some (power f))) by (symmetry; apply addsub_assign_alias).
    destruct (power_add f f Hok Hok) as (p & -> & _). cbn [eval]. unfold done. eauto. }
  destruct E as (t' & E). rewrite E. apply appendFactor_keeps, E.
Qed.
Lemma appendFactors_eq t l : map_ok (factors t) -> Forall factor_ok l -> appendFactors_nd t l = appendFactors t l.
Proof. intros Hm Hl. destruct (appendFactors_ok l t Hm Hl) as (t' & E & _). rewrite E. apply appendFactors_keeps, E. Qed.
Lemma append_own_eq t : map_ok (factors t) -> append_own_nd (S (length (factors t))) 0 t = append_own (S (length (factors t))) 0 t.
Proof. intros Hm. destruct (append_own_ok (S (length (factors t))) 0 t) as (t' & E & _); [exact Hm|lia|lia|]. rewrite E. apply append_own_keeps, E. Qed.
Lemma Term_of_factor_eq x : factor_ok x -> Term_of_factor_nd x = Term_of_factor x.
Proof. intros Hx. destruct (Term_of_factor_ok x Hx) as (t & E & _). rewrite E. apply Term_of_factor_keeps, E. Qed.
Lemma Term_of_eq c x : factor_ok x -> Term_of_nd c x = Term_of c x.
Proof. intros Hx. reflexivity. Qed.
Lemma minus_factor_eq x : minus_factor_nd x = minus_factor x.
Proof. reflexivity. Qed.
Lemma Term_of_vector_eq c l : Forall factor_ok l -> Term_of_vector_nd c l = Term_of_vector c l.
Proof. intros Hl. unfold Term_of_vector_nd. rewrite appendFactors_eq; auto. apply map_ok_nil. Qed.
Lemma factor_mul_eq x y : factor_ok x -> factor_ok y -> factor_mul_nd x y = factor_mul x y.
Proof. intros Hx Hy. destruct (factor_mul_ok x y Hx Hy) as (t & _ & E & _). rewrite E. apply factor_mul_keeps, E. Qed.
Lemma Poly_of_factor_eq x : factor_ok x -> Poly_of_factor_nd x = Poly_of_factor x.
Proof. intros Hx. unfold Poly_of_factor_nd. rewrite (Term_of_factor_eq x Hx). reflexivity. Qed.
Lemma Poly_of_terms_eq l : Poly_of_terms_nd l = Poly_of_terms l.
Proof. destruct l as [|x l]; reflexivity. Qed.
Lemma Poly_of_factors_eq l : Forall factor_ok l -> Poly_of_factors_nd l = Poly_of_factors l.
Proof.
  intros [|x l' Hx _]; [reflexivity|]. unfold Poly_of_factors_nd, Poly_of_factors. cbn [append_each_factor_nd append_each_factor].
  rewrite (Term_of_factor_eq x Hx). destruct (Term_of_factor x); reflexivity.
Qed.

(** *** The coefficient *)
Lemma agree_refl {S} (p : outcome S) : snd p <> Abort -> agree p p.
Proof. intros H. split; [|reflexivity]. destruct (snd p); try reflexivity. contradiction. Qed.
Lemma agree_final {S} (p p' : outcome S) : agree p p' -> final p' = released (final p).
Proof.
  intros [H1 H2]. destruct p as [s r], p' as [s' r']. cbn [snd] in *. subst r'. destruct r as [[]|e| | |]; cbn; try reflexivity.
  assert (s' = s) by (assert (E : (s', Ok tt) = (s, Ok tt)) by (apply H2; discriminate); congruence). subst. reflexivity.
Qed.
Lemma on_coeff_agree t p p' L : same_end p p' L -> agree (on_coeff t p) (on_coeff t p').
Proof.
  intros [(H1 & H2 & _)|(H1 & ->)]; [|apply agree_refl, H1]. split; cbn [on_coeff snd]; [rewrite H1; exact H2|congruence].
Qed.
Lemma F_mul_end x y : reduced x -> (forall z, y = Some z -> reduced z) ->
  same_end (F_mul_assign x y) (F_mul_assign_nd x y) (left_frac (val (top x) * val (top (rd x y))) (val (bot x) * val (bot (rd x y))) (fst (F_mul_assign_nd x y))).
Proof.
  intros Rx Ry. destruct (F_mul_ended x y) as [(H1 & H2 & H3)|H]; [apply reduced_cparts, Rx|intros z Hz; apply reduced_cparts, Ry, Hz| |right; exact H].
  left. splits; auto. apply H3. left. assert (0 < val (bot (rd x y))) by (destruct y as [z|]; cbn [rd]; [apply (Ry z eq_refl)|apply Rx]).
  assert (0 < val (bot x)) by apply Rx. nia.
Qed.
Lemma F_add_end x y : reduced x -> (forall z, y = Some z -> reduced z) ->
  same_end (F_add_assign x y) (F_add_assign_nd x y)
    (left_frac (val (top x) * val (bot (rd x y)) + val (top (rd x y)) * val (bot x)) (val (bot x) * val (bot (rd x y))) (fst (F_add_assign_nd x y))).
Proof.
  intros Rx Ry. destruct (F_add_ended x y) as [(H1 & H2 & H3)|H]; [apply reduced_cparts, Rx|intros z Hz; apply reduced_cparts, Ry, Hz| |right; exact H].
  left. splits; auto. apply H3. left. assert (0 < val (bot (rd x y))) by (destruct y as [z|]; cbn [rd]; [apply (Ry z eq_refl)|apply Rx]).
  assert (0 < val (bot x)) by apply Rx. nia.
Qed.
Lemma FI_mul_end x a : reduced x -> canonical a ->
  same_end (FI_mul_assign x a) (FI_mul_assign_nd x a) (left_frac (val (top x) * val a) (val (bot x)) (fst (FI_mul_assign_nd x a))).
Proof.
  intros Rx Ca. destruct (FI_mul_ended x a) as [(H1 & H2 & H3)|H]; [apply reduced_cparts, Rx|exact Ca| |right; exact H].
  left. splits; auto. apply H3. left. assert (0 < val (bot x)) by apply Rx. lia.
Qed.
Lemma minus_one : exists m, Int_of_int64 (-1) 0 = Ok m /\ canonical m /\ val m = -1.
Proof. eexists. split; [reflexivity|]. split; [|reflexivity]. repeat constructor; cbn; lia || discriminate. Qed.
Lemma negate_agree t : term_ok t -> agree (negate_term t) (negate_term_nd t).
Proof.
  intros Ht. unfold negate_term, negate_term_nd. destruct minus_one as (m & -> & Cm & _). cbn [eval]. eapply on_coeff_agree, FI_mul_end; auto. apply Ht.
Qed.
Lemma appended_term x y : term_ok x -> (forall z, y = Some z -> term_ok z) -> exists t, append_spec x (map snd (factors (rd x y))) t /\
  term_mul_assign x y = on_coeff t (F_mul_assign (coeff x) (match y with Some z => Some (coeff z) | None => None end)) /\
  term_mul_assign_nd x y = on_coeff t (F_mul_assign_nd (coeff x) (match y with Some z => Some (coeff z) | None => None end)).
Proof.
  intros Hx Hy. destruct y as [y|]; cbn [term_mul_assign term_mul_assign_nd rd].
  - specialize (Hy y eq_refl). rewrite appendFactors_eq by first [apply Hx|apply map_ok_factors, Hy].
    destruct (appendFactors_ok (map snd (factors y)) x) as (t & E & A); [apply Hx|apply map_ok_factors, Hy|]. rewrite E. cbn [andthen]. exists t.
    destruct A as (A1 & A2). rewrite A1. splits; auto. split; auto.
  - rewrite append_own_eq by apply Hx. destruct (append_own_ok (S (length (factors x))) 0 x) as (t & E & A); [apply Hx|lia|lia|]. rewrite E. cbn [andthen]. exists t.
    cbn [skipn] in A. destruct A as (A1 & A2). rewrite A1. splits; auto. split; auto.
Qed.
Lemma opt_coeff x y : term_ok x -> (forall z, y = Some z -> term_ok z) ->
  (forall z, (match y with Some z => Some (coeff z) | None => None end) = Some z -> reduced z) /\
  rd (coeff x) (match y with Some z => Some (coeff z) | None => None end) = coeff (rd x y).
Proof. intros Hx Hy. destruct y as [y|]; cbn; split; auto; [|discriminate]. intros z [= <-]. apply (Hy y eq_refl). Qed.
Lemma mul_agree x y : term_ok x -> (forall z, y = Some z -> term_ok z) -> agree (term_mul_assign x y) (term_mul_assign_nd x y).
Proof.
  intros Hx Hy. destruct (appended_term x y Hx Hy) as (t & _ & -> & ->). destruct (opt_coeff x y Hx Hy) as [Ho _].
  eapply on_coeff_agree, F_mul_end; auto. apply Hx.
Qed.
Lemma term_mul_released x y : term_ok x -> term_ok y -> term_mul_nd x y = released (term_mul x y).
Proof. intros Hx Hy. apply (agree_final (term_mul_assign x (Some y)) (term_mul_assign_nd x (Some y))), mul_agree; auto. congruence. Qed.
Lemma append_agree p x : poly_ok p -> term_ok x -> agree (appendTerm p x) (appendTerm_nd p x).
Proof.
  intros Hp Hx. unfold appendTerm, appendTerm_nd. destruct (find_place_ok p x Hp Hx) as (a & b & -> & E & _). cbn [eval fst snd].
  destruct b as [|t b]; [apply agree_refl; discriminate|].
  assert (Ht : term_ok t). { unfold poly_ok in Hp. rewrite E in Hp. apply Forall_app in Hp as [_ Hp]. inversion Hp; auto. }
  destruct (term_eq_ok t x) as (e & -> & He); [apply Ht|apply Hx|]. cbn [eval]. destruct e; [|apply agree_refl; discriminate].
  destruct (on_coeff_agree t _ _ _ (F_add_end (coeff t) (Some (coeff x)) (proj1 Ht) ltac:(intros z [= <-]; apply Hx))) as [H1 H2].
  destruct (on_coeff t (F_add_assign _ _)) as [u r], (on_coeff t (F_add_assign_nd _ _)) as [u' r']. cbn [snd] in *. split; cbn [snd]; [exact H1|].
  intros N. specialize (H2 N). congruence.
Qed.
Lemma term_add_released x y : term_ok x -> term_ok y -> term_add_nd x y = released (term_add x y).
Proof. intros Hx Hy. unfold term_add, term_add_nd, Poly_of_term. cbn [bind]. apply agree_final, append_agree; auto; constructor; auto. Qed.
Lemma released_bind_ok {A B} (m : res A) a (f : A -> res B) g : m = Ok a -> f a = released (g a) -> bind m f = released (bind m g).
Proof. intros -> H. exact H. Qed.
Lemma term_sub_released x y : term_ok x -> term_ok y -> term_sub_nd x y = released (term_sub x y).
Proof.
  intros Hx Hy. unfold term_sub, term_sub_nd, Poly_of_term. cbn [bind]. rewrite (agree_final _ _ (negate_agree y Hy)).
  destruct (negate_term_ok y Hy) as [N1 N2]. destruct (norm_safe_dec (val (top (coeff y))) (val (bot (coeff y)))) as [D|D].
  - destruct (N2 D) as (c & E & Rc & _). rewrite E. cbn. apply agree_final, append_agree; [constructor; auto; constructor|]. split; [exact Rc|apply Hy].
  - specialize (N1 D). unfold final. rewrite N1. reflexivity.
Qed.
Lemma poly_add_agree p f : poly_ok p -> factor_ok f -> agree (poly_add_assign p f) (poly_add_assign_nd p f).
Proof.
  intros Hp Hf. unfold poly_add_assign, poly_add_assign_nd. rewrite (Term_of_factor_eq f Hf). destruct (Term_of_factor_ok f Hf) as (t & -> & Ht & _).
  cbn [eval]. apply append_agree; auto.
Qed.
Lemma minus_factor_term f : factor_ok f -> exists t, minus_factor f = Ok t /\ term_ok t.
Proof.
  intros Hf. unfold minus_factor. destruct (Frac_of_int_ok (-1)) as (c & -> & Rc & _); [unfold INT32_MIN, INT32_MAX; lia|]. cbn [bind].
  destruct (Term_of_ok c f Rc Hf) as [-> Ht]. eauto.
Qed.
Lemma poly_sub_agree p f : poly_ok p -> factor_ok f -> agree (poly_sub_assign p f) (poly_sub_assign_nd p f).
Proof.
  intros Hp Hf. unfold poly_sub_assign, poly_sub_assign_nd. rewrite (minus_factor_eq f). destruct (minus_factor_term f Hf) as (t & -> & Ht).
  cbn [eval]. apply append_agree; auto.
Qed.
Lemma factor_add_released x y : factor_ok x -> factor_ok y -> factor_add_nd x y = released (factor_add x y).
Proof.
  intros Hx Hy. unfold factor_add, factor_add_nd, Poly_of_term. rewrite (Term_of_factor_eq x Hx), (Term_of_factor_eq y Hy).
  destruct (Term_of_factor_ok x Hx) as (t & -> & Ht & _), (Term_of_factor_ok y Hy) as (u & -> & Hu & _). cbn [bind].
  apply agree_final, append_agree; auto; constructor; auto.
Qed.
Lemma factor_sub_released x y : factor_ok x -> factor_ok y -> factor_sub_nd x y = released (factor_sub x y).
Proof.
  intros Hx Hy. unfold factor_sub, factor_sub_nd, Poly_of_factor, Poly_of_factor_nd. rewrite (Term_of_factor_eq x Hx), (minus_factor_eq y).
  destruct (Term_of_factor_ok x Hx) as (t & -> & Ht & _), (minus_factor_term y Hy) as (u & -> & Hu). cbn [bind].
  apply agree_final, append_agree; auto; constructor; auto.
Qed.

(** *** What is left *)
Lemma negate_left t : term_ok t -> ~ norm_safe (val (top (coeff t))) (val (bot (coeff t))) ->
  exists c, negate_term_nd t = (mkTerm c (factors t), Throw OutOfRange) /\ left_frac (- val (top (coeff t))) (val (bot (coeff t))) c.
Proof.
  intros Ht D. destruct (negate_term_ok t Ht) as [N1 _]. specialize (N1 D). unfold negate_term, negate_term_nd in *. destruct minus_one as (m & E & Cm & Vm). rewrite E in *. cbn [eval] in *.
  destruct (FI_mul_end (coeff t) m (proj1 Ht) Cm) as [(_ & H2 & H3)|(H & _)]; [|contradiction]. exists (fst (FI_mul_assign_nd (coeff t) m)).
  unfold on_coeff. rewrite H2. split; [reflexivity|]. rewrite Vm in H3. replace (- val (top (coeff t))) with (val (top (coeff t)) * -1) by lia. exact H3.
Qed.
Lemma mul_left x y : term_ok x -> (forall z, y = Some z -> term_ok z) -> ~ mul_safe x (rd x y) -> exists c t,
  append_spec x (map snd (factors (rd x y))) t /\ term_mul_assign_nd x y = (mkTerm c (factors t), Throw OutOfRange) /\
  left_frac (val (top (coeff x)) * val (top (coeff (rd x y)))) (val (bot (coeff x)) * val (bot (coeff (rd x y)))) c.
Proof.
  intros Hx Hy D. assert (A : snd (term_mul_assign x y) = Abort). { destruct y as [y|]; [apply (term_mul_ok x y Hx (Hy y eq_refl)), D|apply (term_square_ok x Hx), D]. }
  destruct (appended_term x y Hx Hy) as (t & At & E1 & E2). rewrite E1 in A. destruct (opt_coeff x y Hx Hy) as [Ho Eo].
  destruct (F_mul_end (coeff x) _ (proj1 Hx) Ho) as [(_ & H2 & H3)|(H & _)]; [|contradiction]. rewrite Eo in H3.
  eexists _, t. splits; [exact At| |exact H3]. rewrite E2. unfold on_coeff. rewrite H2. reflexivity.
Qed.
Lemma add_safe_dec t x : add_safe t x \/ ~ add_safe t x.
Proof. apply norm_safe_dec. Qed.
Lemma mul_safe_dec t x : mul_safe t x \/ ~ mul_safe t x.
Proof. apply norm_safe_dec. Qed.
Lemma append_left p x : poly_ok p -> term_ok x ->
  (Forall (fun t => term_before t x) p /\ appendTerm_nd p x = (p, UB)) \/
  (exists q, appendTerm_nd p x = (q, Ok tt) /\ appendTerm p x = (q, Ok tt)) \/
  (exists a t b c, p = a ++ t :: b /\ Forall (fun t => term_before t x) a /\ ~ term_before t x /\ factors t = factors x /\ ~ add_safe t x /\
     appendTerm_nd p x = (a ++ mkTerm c (factors t) :: b, Throw OutOfRange) /\
     left_frac (val (top (coeff t)) * val (bot (coeff x)) + val (top (coeff x)) * val (bot (coeff t))) (val (bot (coeff t)) * val (bot (coeff x))) c).
Proof.
  intros Hp Hx. unfold appendTerm, appendTerm_nd. destruct (find_place_ok p x Hp Hx) as (a & b & -> & E & H1 & H2). cbn [eval fst snd].
  destruct b as [|t b]; [left; split; auto; subst p; rewrite app_nil_r; auto|right].
  assert (Ht : term_ok t). { unfold poly_ok in Hp. rewrite E in Hp. apply Forall_app in Hp as [_ Hp]. inversion Hp; auto. }
  destruct (term_eq_ok t x) as (e & -> & He); [apply Ht|apply Hx|]. cbn [eval]. destruct e; [|left; unfold done; eauto].
  assert (F : factors t = factors x) by (apply He; reflexivity).
  destruct (F_add_end (coeff t) (Some (coeff x)) (proj1 Ht) ltac:(intros z [= <-]; apply Hx)) as [(A & A2 & A3)|(A & A2)].
  - right. exists a, t, b, (fst (F_add_assign_nd (coeff t) (Some (coeff x)))). splits; auto.
    + intros D. destruct (add_coeff t x (proj1 Ht) (proj1 Hx)) as [(_ & c & Ec & _)|(N & _)]; [rewrite Ec in A; discriminate|contradiction].
    + unfold on_coeff. rewrite A2. reflexivity.
  - left. destruct (add_coeff t x (proj1 Ht) (proj1 Hx)) as [(_ & c & Ec & _)|(_ & Ec)]; [|contradiction]. rewrite A2, Ec. cbn [on_coeff fst snd]. eauto.
Qed.
