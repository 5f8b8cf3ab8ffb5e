(** Programs of calls of Factor, Term and Poly without assertions: proofs. *)
From Coq Require Import ZArith Ascii List Permutation.
From Verif Require Import Base IntModel IntSpec IntBasics FracModel FracSpec IOModel ElemModel ElemSpec ElemProofs
  PolyModel PolySpec PolyProofs PolyTerms PolyPoly PolyCalls CatchModel PropsFrac FracHistory ReleaseModel ReleaseProofs FracReleaseModel PropsFracRelease
  FracReleaseCallsModel FracReleaseCallsSpec FracReleaseCallsProofs PolyReleaseModel PolyReleaseProofs PolyReleaseCallsModel PolyReleaseCallsSpec.
Import ListNotations.
Local Open Scope list_scope.
Local Open Scope Z_scope.

(** *** What the spec sees of objects *)
Definition fac (f : Factor) : name * Z := (fid f, val (power f)).
Definition see_term (t : Term) : sterm := mkS (pr (coeff t)) (all_names (map fac (map snd (factors t)))).
Definition see (s : objects) : sobjects := mkSO (fun a => fac (F s a)) (fun a => see_term (T s a)) (fun a => map see_term (P s a)).
(** Any coefficient of well-formed Ints, zero or negative denominators included. *)
Definition wterm (t : Term) : Prop := wfrac (coeff t) /\ map_ok (factors t).
Definition wobjects (s : objects) : Prop := (forall a, factor_ok (F s a)) /\ (forall a, wterm (T s a)) /\ (forall a, Forall wterm (P s a)).
Definition wargs (c : pcall) : Prop :=
  match c with
  | FactorNew _ _ x | SetPower _ x => canonical x
  | TermCoeff _ c _ | TermVector _ c _ | SetCoeff _ c => wfrac c
  | _ => True
  end.

Lemma all_names_none l k : all_names (map fac l) k = None <-> ~ exists f, In f l /\ fid f = k.
Proof.
  induction l as [|f l IH]; cbn [map all_names fold_right].
  - split; [intros _ (f & [] & _)|reflexivity].
  - fold (all_names (map fac l) k). unfold at_name at 1, fac at 1 2. cbn [fst snd]. destruct (list_eq_dec ascii_dec (fid f) k) as [E|N].
    + split; [destruct (all_names _ k); discriminate|]. intros H. exfalso. apply H. exists f. split; [left|]; auto.
    + cbn [add_opt]. rewrite IH. split; intros H (g & I & G); apply H; [destruct I as [<-|I]; [contradiction|eauto]|exists g; split; [right|]; auto].
Qed.
Lemma all_names_some l k v : all_names (map fac l) k = Some v -> v = total l k.
Proof.
  revert v. induction l as [|f l IH]; intros v; cbn [map all_names fold_right]; [discriminate|].
  fold (all_names (map fac l) k). rewrite total_cons. unfold at_name at 1, fac at 1 2, degree. cbn [fst snd]. destruct (list_eq_dec ascii_dec (fid f) k) as [E|N]; cbn [add_opt].
  - destruct (all_names (map fac l) k) as [w|] eqn:A; intros [= <-]; [rewrite (IH w eq_refl); reflexivity|].
    assert (N : total l k = 0); [|lia]. apply all_names_none in A. clear IH. induction l as [|g l IH]; [reflexivity|]. rewrite total_cons, IH.
    + rewrite degree_ne; [reflexivity|]. intros G. apply A. exists g. split; [left|]; auto.
    + intros (h & I & G). apply A. exists h. split; [right|]; auto.
  - intros H. rewrite (IH v H). reflexivity.
Qed.
Lemma total_none l k : all_names (map fac l) k = None -> total l k = 0.
Proof.
  intros H. assert (A : all_names (map fac (mkFactor k (mkInt [0] false) :: l)) k = Some 0).
  { cbn [map all_names fold_right]. fold (all_names (map fac l) k). rewrite H. unfold at_name, fac. cbn [fst snd fid power]. destruct (list_eq_dec ascii_dec k k); [reflexivity|contradiction]. }
  apply all_names_some in A. rewrite total_cons in A. unfold degree in A. cbn [fid power] in A. destruct (list_eq_dec ascii_dec k k); [|contradiction]. change (val (mkInt [0] false)) with 0 in A. lia.
Qed.
Lemma occurs_names t k : map_ok (factors t) -> (occurs t k <-> exists f, In f (map snd (factors t)) /\ fid f = k).
Proof.
  intros [_ H]. rewrite Forall_forall in H. unfold occurs. split.
  - intros I. apply in_map_iff in I as ([k' f] & <- & I). exists f. split; [apply in_map_iff; exists (k', f); auto|]. apply (H _ I).
  - intros (f & I & <-). apply in_map_iff in I as ([k' g] & <- & I). rewrite (proj1 (H _ I)). apply in_map_iff. exists (k', g). auto.
Qed.
Lemma append_monomial x l t : map_ok (factors x) -> append_spec x l t -> times (mono (see_term x)) (all_names (map fac l)) (mono (see_term t)).
Proof.
  intros Hx (A1 & A2 & A3 & A4 & _) k. cbn [see_term mono]. specialize (A3 k). specialize (A4 k). unfold exponent in A3.
  rewrite (occurs_names t k A2), (occurs_names x k Hx) in A4.
  destruct (all_names (map fac (map snd (factors x))) k) as [v|] eqn:E1, (all_names (map fac l) k) as [w|] eqn:E2,
    (all_names (map fac (map snd (factors t))) k) as [u|] eqn:E3; cbn [add_opt];
    repeat match goal with
    | H : all_names _ k = Some _ |- _ => pose proof (all_names_some _ _ _ H); assert (all_names _ k <> None) by (rewrite H; discriminate); clear H
    | H : all_names _ k = None |- _ => pose proof (total_none _ _ H); pose proof (proj1 (all_names_none _ _) H); clear H
    end; try (f_equal; lia); try reflexivity.
  all: exfalso; rewrite ?all_names_none in *; tauto.
Qed.

(** *** Coefficients *)
Definition coeff_ends (old : Frac) (n d : Z) (p : fst_res) : Prop :=
  wfrac (fst p) /\ exists ev, becomes (pr old) n d ev (pr (fst p)) /\ match snd p with Ok _ => ev = Done | Throw e => ev = Caught e | _ => False end.
Lemma stops_ends x p n d : wfrac x -> stops x p n d -> coeff_ends x n d p.
Proof.
  intros W [-> |[W' H]]; [split; [exact W|]; exists (Caught OutOfRange); split; [constructor|reflexivity]|].
  split; [exact W'|]. destruct (snd p) as [?|[]| | |]; try contradiction.
  - exists Done. split; [constructor; exact H|reflexivity].
  - destruct H as (-> & -> & ->). exists (Caught DivideByZero). split; [constructor; reflexivity|reflexivity].
  - exists (Caught OutOfRange). split; [apply b_left; exact H|reflexivity].
Qed.
Lemma coeff_vals x p n d n' d' : coeff_ends x n d p -> n = n' -> d = d' -> coeff_ends x n' d' p.
Proof. intros H -> ->. exact H. Qed.
Lemma mul_ends x o : wfrac x -> (forall y, o = Some y -> wfrac y) ->
  coeff_ends x (fst (pr x) * fst (pr (rd x o))) (snd (pr x) * snd (pr (rd x o))) (F_mul_assign_nd x o).
Proof. intros Hx Ho. apply stops_ends; [exact Hx|]. exact (assign_sound_nd FMul x o Hx Ho). Qed.
Lemma add_ends x y : wfrac x -> wfrac y ->
  coeff_ends x (fst (pr x) * snd (pr y) + fst (pr y) * snd (pr x)) (snd (pr x) * snd (pr y)) (F_add_assign_nd x (Some y)).
Proof. intros Hx Hy. apply stops_ends; [exact Hx|]. exact (assign_sound_nd FAdd x (Some y) Hx ltac:(intros ? [= <-]; exact Hy)). Qed.
Lemma neg_ends x m : wfrac x -> wf m -> val m = -1 -> coeff_ends x (- fst (pr x)) (snd (pr x)) (FI_mul_assign_nd x m).
Proof.
  intros Hx Hm V. destruct (int_assign_sound FMul x m Hx Hm) as [(_ & _ & [H|H] & _)|H]; try discriminate H.
  cbn [FIasg_left FIasg_nd] in H. eapply coeff_vals; [apply stops_ends; [exact Hx|right; exact H]|cbn [num pr fst]; lia|cbn [den pr snd]; lia].
Qed.

(** *** Terms *)
Lemma product_left x o : wterm x -> (forall z, o = Some z -> wterm z) -> exists t p, append_spec x (map snd (factors (rd x o))) t /\
  coeff_ends (coeff x) (fst (pr (coeff x)) * fst (pr (coeff (rd x o)))) (snd (pr (coeff x)) * snd (pr (coeff (rd x o)))) p /\
  term_mul_assign_nd x o = on_coeff t p.
Proof.
  intros Hx Ho. destruct o as [y|]; cbn [term_mul_assign_nd rd].
  - specialize (Ho y eq_refl). rewrite appendFactors_eq by first [apply Hx|apply map_ok_factors, Ho].
    destruct (appendFactors_ok (map snd (factors y)) x) as (t & E & A); [apply Hx|apply map_ok_factors, Ho|]. rewrite E. cbn [andthen].
    exists t, (F_mul_assign_nd (coeff t) (Some (coeff y))). splits; [exact A| |reflexivity]. destruct A as (-> & _).
    apply (mul_ends (coeff x) (Some (coeff y))); [apply Hx|]. intros z [= <-]. apply Ho.
  - rewrite append_own_eq by apply Hx. destruct (append_own_ok (S (length (factors x))) 0 x) as (t & E & A); [apply Hx|lia|lia|]. rewrite E. cbn [andthen skipn] in *.
    exists t, (F_mul_assign_nd (coeff t) None). splits; [exact A| |reflexivity]. destruct A as (-> & _). apply (mul_ends (coeff x) None); [apply Hx|discriminate].
Qed.
Lemma negate_sound t : wterm t -> exists p, coeff_ends (coeff t) (- fst (pr (coeff t))) (snd (pr (coeff t))) p /\ negate_term_nd t = on_coeff t p.
Proof.
  intros Ht. unfold negate_term_nd. destruct minus_one as (m & -> & Cm & Vm). cbn [eval]. eexists. split; [|reflexivity]. apply neg_ends; [apply Ht|apply canonical_wf, Cm|exact Vm].
Qed.
Lemma factor_sound x f : wterm x -> factor_ok f -> exists t, appendFactor_nd x f false = (t, Ok tt) /\ wterm t /\ coeff t = coeff x /\
  times (mono (see_term x)) (at_name (fac f)) (mono (see_term t)).
Proof.
  intros Hx Hf. destruct (appendFactor_ok x f (proj2 Hx) Hf) as (t & E & A). exists t. split; [apply appendFactor_keeps, E|].
  pose proof (append_monomial x [f] t (proj2 Hx) A) as H. destruct A as (A1 & A2 & _). splits; auto; [split; [rewrite A1; apply Hx|exact A2]|].
  intros k. rewrite H. cbn [map all_names fold_right]. destruct (at_name (fac f) k); reflexivity.
Qed.
Lemma unit_map f : factor_ok f -> map_ok [(fid f, f)].
Proof. intros H. apply map_ok_cons. splits; auto using map_ok_nil. constructor. Qed.
Definition ONE := mkFrac (mkInt [1] false) (mkInt [1] false).
Definition MINUS := mkFrac (mkInt [1] true) (mkInt [1] false).
Lemma wONE : wfrac ONE. Proof. split; apply canonical_wf, canonicalb_spec; reflexivity. Qed.
Lemma wMINUS : wfrac MINUS. Proof. split; apply canonical_wf, canonicalb_spec; reflexivity. Qed.
Lemma unit_eq f : Term_of_factor_nd f = Ok (mkTerm ONE [(fid f, f)]). Proof. reflexivity. Qed.
Lemma minus_eq f : minus_factor_nd f = Ok (mkTerm MINUS [(fid f, f)]). Proof. reflexivity. Qed.

(** *** Polynomials *)
Lemma find_place_w p x : Forall wterm p -> wterm x -> exists a b, find_place p x = Ok (a, b) /\ p = a ++ b.
Proof.
  intros Hp Hx. induction Hp as [|t p Ht Hp IH]; cbn [find_place].
  - exists [], []. auto.
  - destruct (term_lt_ok t x (proj2 Ht) (proj2 Hx)) as (b & -> & _). cbn [bind]. destruct b.
    + destruct IH as (a & b & -> & ->). cbn [bind]. exists (t :: a), b. auto.
    + exists [], (t :: p). auto.
Qed.
Lemma append_cases p x : Forall wterm p -> wterm x -> appendTerm_nd p x = (p, UB) \/
  exists a t b, p = a ++ t :: b /\
    (factors t = factors x /\ (let r := F_add_assign_nd (coeff t) (Some (coeff x)) in appendTerm_nd p x = (a ++ mkTerm (fst r) (factors t) :: b, snd r)) \/
     appendTerm_nd p x = (a ++ x :: t :: b, Ok tt)).
Proof.
  intros Hp Hx. unfold appendTerm_nd. destruct (find_place_w p x Hp Hx) as (a & b & -> & E). cbn [eval fst snd].
  destruct b as [|t b]; [left; reflexivity|right]. exists a, t, b. split; [exact E|].
  assert (Ht : wterm t). { rewrite E in Hp. apply Forall_app in Hp as [_ Hp]. inversion Hp; auto. }
  destruct (term_eq_ok t x (proj2 Ht) (proj2 Hx)) as (e & -> & He). cbn [eval]. destruct e; [left; split; [apply He; reflexivity|reflexivity]|right; reflexivity].
Qed.
Definition is_event (r : res unit) (ev : event) : Prop := match r with Ok _ => ev = Done | Throw e => ev = Caught e | _ => False end.
Lemma append_sound p x : Forall wterm p -> wterm x -> appendTerm_nd p x = (p, UB) \/
  (Forall wterm (fst (appendTerm_nd p x)) /\ exists ev, is_event (snd (appendTerm_nd p x)) ev /\ appends (map see_term p) (see_term x) ev (map see_term (fst (appendTerm_nd p x)))).
Proof.
  intros Hp Hx. destruct (append_cases p x Hp Hx) as [H|(a & t & b & E & [[Ef H]|H])]; [left; exact H|right..]; rewrite H; cbn [fst snd];
    rewrite E in Hp; apply Forall_app in Hp as [Ha Hb]; inversion Hb as [|? ? Ht Hb']; subst.
  - destruct (add_ends (coeff t) (coeff x) (proj1 Ht) (proj1 Hx)) as (W & ev & B & R). split.
    + apply Forall_app. split; auto. constructor; auto. split; [exact W|apply Ht].
    + exists ev. split; [exact R|]. rewrite !map_app. cbn [map]. unfold see_term at 5. cbn [coeff factors]. eapply (a_old _ _ (map see_term a) (see_term t) (map see_term b)).
      * reflexivity.
      * intros k. cbn [see_term mono]. rewrite Ef. reflexivity.
      * exact B.
  - split; [apply Forall_app; split; auto; constructor; auto; constructor; auto|]. exists Done. split; [reflexivity|]. rewrite !map_app. cbn [map]. apply a_new. reflexivity.
Qed.
Lemma none_less_w x l : wterm x -> Forall wterm l -> exists b, none_less x l = Ok b.
Proof.
  intros Hx. induction 1 as [|y l Hy Hl IH]; cbn [none_less]; [eauto|].
  destruct (term_lt_ok y x (proj2 Hy) (proj2 Hx)) as (b & -> & _). cbn [bind]. destruct b; eauto.
Qed.
Lemma is_sorted_w l : Forall wterm l -> exists b, is_sorted l = Ok b.
Proof. induction 1 as [|x l Hx Hl IH]; cbn [is_sorted]; [eauto|]. destruct (none_less_w x l Hx Hl) as (b & ->). cbn [bind]. destruct b; eauto. Qed.
Lemma merge_loop_w fuel : forall a b, Forall wterm a -> Forall wterm b -> (length a + length b < fuel)%nat -> exists r, merge_loop fuel a b = Ok r.
Proof.
  induction fuel as [|fuel IH]; intros a b Ha Hb L; [lia|]. cbn [merge_loop].
  destruct a as [|x a]; [eauto|]. destruct b as [|y b]; [eauto|].
  inversion Ha; subst. inversion Hb; subst. destruct (term_lt_ok y x) as (l & -> & _); [apply H3|apply H1|]. cbn [bind length] in *. destruct l.
  - destruct (IH (x :: a) b) as (r & ->); auto; [cbn; lia|]. cbn. eauto.
  - destruct (IH a (y :: b)) as (r & ->); auto; [cbn; lia|]. cbn. eauto.
Qed.
Lemma merge_sound p l : Forall wterm p -> Forall wterm l -> appendTerms p l = UB \/ exists r, appendTerms p l = Ok r /\ Permutation (p ++ l) r.
Proof.
  intros Hp Hl. unfold appendTerms. destruct (is_sorted_w p Hp) as (b1 & ->), (is_sorted_w l Hl) as (b2 & ->). cbn [bind].
  destruct (b1 && b2); [|left; reflexivity]. right. destruct (merge_loop_w (S (length p + length l)) p l Hp Hl ltac:(lia)) as (r & E). rewrite E. exists r. split; [reflexivity|]. apply (merge_loop_perm _ _ _ _ E).
Qed.

(** *** Calls *)
Definition does (s : objects) (c : pcall) (m : res (objects * event)) : Prop :=
  (m = UB /\ adds c = true) \/ exists s' ev, m = Ok (s', ev) /\ wobjects s' /\ pcall_does (see s) c ev (see s').
Lemma put_same {A} (m : nat -> A) d x : put_at m d x d = x. Proof. unfold put_at. rewrite Nat.eqb_refl. reflexivity. Qed.
Lemma put_other {A} (m : nat -> A) d x k : k <> d -> put_at m d x k = m k. Proof. intros N. unfold put_at. destruct (Nat.eqb_spec k d); [contradiction|reflexivity]. Qed.
Lemma put_all {A} (P : A -> Prop) m d x : (forall k, P (m k)) -> P x -> forall k, P (put_at m d x k).
Proof. intros H Hx k. unfold put_at. destruct (Nat.eqb k d); auto. Qed.
Lemma wF s d x : wobjects s -> factor_ok x -> wobjects (putF s d x).
Proof. intros (A & B & C) H. split; [|split]; cbn [putF F T P]; auto. apply (put_all _ _ _ _ A H). Qed.
Lemma wT s d x : wobjects s -> wterm x -> wobjects (putT s d x).
Proof. intros (A & B & C) H. split; [|split]; cbn [putT F T P]; auto. apply (put_all _ _ _ _ B H). Qed.
Lemma wP s d x : wobjects s -> Forall wterm x -> wobjects (putP s d x).
Proof. intros (A & B & C) H. split; [|split]; cbn [putP F T P]; auto. apply (put_all (Forall wterm) _ _ _ C H). Qed.
Lemma kF s d x : keepsF d (see s) (see (putF s d x)).
Proof. split; [|split]; intros k; cbn [see putF F T P sF sT sP]; try reflexivity. intros N. rewrite put_other by exact N. reflexivity. Qed.
Lemma kT s d x : keepsT d (see s) (see (putT s d x)).
Proof. split; [|split]; intros k; cbn [see putT F T P sF sT sP]; try reflexivity. intros N. rewrite put_other by exact N. reflexivity. Qed.
Lemma kP s d x : keepsP d (see s) (see (putP s d x)).
Proof. split; [|split]; intros k; cbn [see putP F T P sF sT sP]; try reflexivity. intros N. rewrite put_other by exact N. reflexivity. Qed.
Lemma kT0 s d : keepsT d (see s) (see s). Proof. split; [|split]; reflexivity. Qed.
Lemma kP0 s d : keepsP d (see s) (see s). Proof. split; [|split]; reflexivity. Qed.
Lemma sF_put s d x : sF (see (putF s d x)) d = fac x. Proof. cbn [see putF sF F]. rewrite put_same. reflexivity. Qed.
Lemma sT_put s d x : sT (see (putT s d x)) d = see_term x. Proof. cbn [see putT sT T]. rewrite put_same. reflexivity. Qed.
Lemma sP_put s d x : sP (see (putP s d x)) d = map see_term x. Proof. cbn [see putP sP P]. rewrite put_same. reflexivity. Qed.

Lemma factor_call s c d x : wobjects s -> factor_ok x -> (forall s', keepsF d (see s) s' -> sF s' d = fac x -> pcall_does (see s) c Done s') ->
  does s c (make s (Ok x) (putF s d)).
Proof. intros W H K. right. do 2 eexists. split; [reflexivity|]. split; [apply wF; auto|]. apply K; [apply kF|apply sF_put]. Qed.
Lemma term_call s c d m x : wobjects s -> m = Ok x -> wterm x -> (forall s', keepsT d (see s) s' -> sT s' d = see_term x -> pcall_does (see s) c Done s') ->
  does s c (make s m (putT s d)).
Proof. intros W -> H K. right. do 2 eexists. split; [reflexivity|]. split; [apply wT; auto|]. apply K; [apply kT|apply sT_put]. Qed.
Lemma term_change s c d p x : wobjects s -> p = (x, Ok tt) -> wterm x -> (forall s', keepsT d (see s) s' -> sT s' d = see_term x -> pcall_does (see s) c Done s') ->
  does s c (change p (putT s d)).
Proof. intros W -> H K. right. do 2 eexists. split; [reflexivity|]. split; [apply wT; auto|]. apply K; [apply kT|apply sT_put]. Qed.
Lemma poly_call s c d m x : wobjects s -> m = Ok x -> Forall wterm x -> (forall s', keepsP d (see s) s' -> sP s' d = map see_term x -> pcall_does (see s) c Done s') ->
  does s c (make s m (putP s d)).
Proof. intros W -> H K. right. do 2 eexists. split; [reflexivity|]. split; [apply wP; auto|]. apply K; [apply kP|apply sP_put]. Qed.
(* coefficients in place, and in a new term *)
Lemma coeff_change s c d t old n e p : wobjects s -> map_ok (factors t) -> coeff_ends old n e p ->
  (forall s' ev q, keepsT d (see s) s' -> becomes (pr old) n e ev q -> sT s' d = mkS q (mono (see_term t)) -> pcall_does (see s) c ev s') ->
  does s c (change (on_coeff t p) (putT s d)).
Proof.
  intros W M (Wp & ev & B & R) K. right. unfold change, on_coeff. cbn [fst snd]. destruct (snd p) as [?|x| | |]; try contradiction; subst ev; do 2 eexists; (split; [reflexivity|]);
    (split; [apply wT; [exact W|split; [exact Wp|exact M]]|]); (eapply K; [apply kT|exact B|apply sT_put]).
Qed.
Lemma append_change s c d p x : wobjects s -> adds c = true -> Forall wterm p -> wterm x ->
  (forall s' ev q, keepsP d (see s) s' -> appends (map see_term p) (see_term x) ev q -> sP s' d = q -> pcall_does (see s) c ev s') ->
  does s c (change (appendTerm_nd p x) (putP s d)).
Proof.
  intros W A Hp Hx K. destruct (append_sound p x Hp Hx) as [-> |(Wp & ev & R & Ap)]; [left; auto|right]. unfold change.
  destruct (snd (appendTerm_nd p x)) as [?|e| | |]; try contradiction; cbn [is_event] in R; subst ev; do 2 eexists; (split; [reflexivity|]);
    (split; [apply wP; auto|]); (eapply K; [apply kP|exact Ap|apply sP_put]).
Qed.
Lemma append_make s c d p x : wobjects s -> adds c = true -> Forall wterm p -> wterm x ->
  (forall s' ev q, keepsP d (see s) s' -> appends (map see_term p) (see_term x) ev q ->
     sP s' d = (match ev with Done => q | _ => sP (see s) d end) -> pcall_does (see s) c ev s') ->
  does s c (make s (final (appendTerm_nd p x)) (putP s d)).
Proof.
  intros W A Hp Hx K. destruct (append_sound p x Hp Hx) as [-> |(Wp & ev & R & Ap)]; [left; auto|right]. unfold make, final.
  destruct (snd (appendTerm_nd p x)) as [?|e| | |]; try contradiction; cbn [is_event] in R; subst ev; cbn [bind]; do 2 eexists; (split; [reflexivity|]).
  - split; [apply wP; auto|]. eapply K; [apply kP|exact Ap|apply sP_put].
  - split; [exact W|]. eapply K; [apply kP0|exact Ap|reflexivity].
Qed.
(* 1 x + (1 or -1) y: nothing is thrown *)
Lemma units_make s c d a b k : (k = ONE \/ k = MINUS) -> wobjects s -> adds c = true -> factor_ok a -> factor_ok b ->
  (forall s' q, keepsP d (see s) s' -> appends [see_term (mkTerm ONE [(fid a, a)])] (see_term (mkTerm k [(fid b, b)])) Done q -> sP s' d = q -> pcall_does (see s) c Done s') ->
  does s c (make s (final (appendTerm_nd [mkTerm ONE [(fid a, a)]] (mkTerm k [(fid b, b)]))) (putP s d)).
Proof.
  intros Hk W A Ha Hb K. assert (Wk : wfrac k) by (destruct Hk as [-> | ->]; [exact wONE|exact wMINUS]).
  assert (W1 : Forall wterm [mkTerm ONE [(fid a, a)]]) by (constructor; [split; [exact wONE|apply unit_map; exact Ha]|constructor]).
  assert (W2 : wterm (mkTerm k [(fid b, b)])) by (split; [exact Wk|apply unit_map; exact Hb]).
  assert (R : snd (appendTerm_nd [mkTerm ONE [(fid a, a)]] (mkTerm k [(fid b, b)])) = UB \/ snd (appendTerm_nd [mkTerm ONE [(fid a, a)]] (mkTerm k [(fid b, b)])) = Ok tt).
  { destruct (append_cases _ _ W1 W2) as [H|(l & t & r & E & [[_ H]|H])]; rewrite H; auto. right. cbn [snd coeff].
    destruct l as [|? [|? ?]]; try discriminate E. injection E as <- <-. destruct Hk as [-> | ->]; vm_compute; reflexivity. }
  destruct (append_sound _ _ W1 W2) as [E|(Wp & ev & Re & Ap)]; [rewrite E; left; auto|]. destruct R as [R|R]; rewrite R in Re; [contradiction|]. cbn [is_event] in Re. subst ev.
  right. unfold make, final. rewrite R. cbn [bind]. do 2 eexists. split; [reflexivity|]. split; [apply wP; auto|]. eapply K; [apply kP|exact Ap|apply sP_put].
Qed.

Lemma call_does s c : wobjects s -> wargs c -> does s c (nd_call s c).
Proof.
  intros W A. pose proof W as (Fok & Tok & Pok). destruct c; cbn [nd_call wargs] in *.
  - apply factor_call; auto. intros s' K E. split; [reflexivity|]. split; [exact K|exact E].
  - apply factor_call; auto; try apply Fok. intros s' K E. split; [reflexivity|]. split; [exact K|exact E].
  - apply factor_call; auto; try apply Fok. intros s' K E. split; [reflexivity|]. split; [exact K|exact E].
  - apply factor_call; auto. intros s' K E. split; [reflexivity|]. split; [exact K|exact E].
  - eapply term_call; [exact W|apply unit_eq|split; [exact wONE|apply unit_map, Fok]|]. intros s' K E. split; [reflexivity|]. split; [exact K|exact E].
  - eapply term_call; [exact W|reflexivity|split; [exact A|apply unit_map, Fok]|]. intros s' K E. split; [reflexivity|]. split; [exact K|exact E].
  - assert (Fl : Forall factor_ok (map (F s) fs)) by (apply Forall_forall; intros x I; apply in_map_iff in I as (y & <- & _); apply Fok).
    destruct (appendFactors_ok (map (F s) fs) (mkTerm c []) map_ok_nil Fl) as (t & E & Ap).
    eapply term_call; [exact W|unfold Term_of_vector_nd; rewrite appendFactors_eq by auto using map_ok_nil; rewrite E; reflexivity| |].
    + destruct Ap as (A1 & M & _). cbn [fst]. split; [rewrite A1; exact A|exact M].
    + intros s' K E'. split; [reflexivity|]. split; [exact K|]. rewrite E'. pose proof (append_monomial (mkTerm c []) _ _ map_ok_nil Ap) as H. cbn [fst].
      destruct Ap as (A1 & _). split; [cbn [see_term sc]; rewrite A1; reflexivity|]. intros k. rewrite (H k), map_map. reflexivity.
  - eapply term_call; [exact W|reflexivity|apply Tok|]. intros s' K E. split; [reflexivity|]. split; [exact K|exact E].
  - unfold factor_mul_nd. rewrite unit_eq. cbn [bind]. destruct (factor_sound (mkTerm ONE [(fid (F s f), F s f)]) (F s g)) as (t & E & Wt & Ec & M); [split; [exact wONE|apply unit_map, Fok]|apply Fok|].
    eapply term_call; [exact W|rewrite E; reflexivity|exact Wt|]. intros s' K E'. split; [reflexivity|]. split; [exact K|]. rewrite E'. cbn [fst]. split; [cbn [see_term sc]; rewrite Ec; reflexivity|].
    intros k. rewrite (M k). cbn [see_term see sF mono factors map snd all_names fold_right]. destruct (at_name (fac (F s f)) k); reflexivity.
  - destruct (factor_sound (T s t) (F s f) (Tok t) (Fok f)) as (u & E & Wt & Ec & M). eapply term_call; [exact W|unfold term_mul_factor_nd; rewrite E; reflexivity|exact Wt|].
    intros s' K E'. split; [reflexivity|]. split; [exact K|]. rewrite E'. cbn [fst]. split; [cbn [see_term sc]; rewrite Ec; reflexivity|exact M].
  - destruct (factor_sound (T s t) (F s f) (Tok t) (Fok f)) as (u & E & Wt & Ec & M). eapply term_call; [exact W|unfold term_mul_factor_nd; rewrite E; reflexivity|exact Wt|].
    intros s' K E'. split; [reflexivity|]. split; [exact K|]. rewrite E'. cbn [fst]. split; [cbn [see_term sc]; rewrite Ec; reflexivity|exact M].
  - (* t * u *)
    destruct (product_left (T s t) (Some (T s u)) (Tok t)) as (x & p & Ap & (Wp & ev & B & R) & E); [intros z [= <-]; apply Tok|]. cbn [rd] in *.
    change (term_mul_nd (T s t) (T s u)) with (final (term_mul_assign_nd (T s t) (Some (T s u)))). rewrite E. pose proof (append_monomial _ _ _ (proj2 (Tok t)) Ap) as M.
    right. unfold final, on_coeff. cbn [fst snd]. destruct (snd p) as [?|e| | |]; try contradiction; subst ev; cbn [bind make]; do 2 eexists; (split; [reflexivity|]).
    + split; [apply wT; [exact W|split; [exact Wp|apply Ap]]|]. split; [apply kT|]. eexists. split; [exact B|]. rewrite sT_put. split; [reflexivity|exact M].
    + split; [exact W|]. split; [apply kT0|]. eexists. split; [exact B|reflexivity].
  - destruct (factor_sound (T s t) (F s f) (Tok t) (Fok f)) as (u & E & Wt & Ec & M). eapply term_change; [exact W|exact E|exact Wt|].
    intros s' K E'. split; [reflexivity|]. split; [exact K|]. rewrite E'. cbn [fst]. split; [cbn [see_term sc]; rewrite Ec; reflexivity|exact M].
  - destruct (factor_sound (T s t) (F s f) (Tok t) (Fok f)) as (u & E & Wt & Ec & M). eapply term_change; [exact W|exact E|exact Wt|].
    intros s' K E'. split; [reflexivity|]. split; [exact K|]. rewrite E'. cbn [fst]. split; [cbn [see_term sc]; rewrite Ec; reflexivity|exact M].
  - (* t *= u *)
    assert (Rd : rd (T s t) (if Nat.eqb t u then None else Some (T s u)) = T s u) by (destruct (Nat.eqb_spec t u) as [-> |]; reflexivity).
    destruct (product_left (T s t) (if Nat.eqb t u then None else Some (T s u)) (Tok t)) as (x & p & Ap & Ce & E); [destruct (Nat.eqb t u); [discriminate|intros z [= <-]; apply Tok]|]. rewrite Rd in *.
    rewrite E. eapply coeff_change; [exact W|apply Ap|exact Ce|]. intros s' ev q K B E'. split; [exact K|]. exists q. split; [exact B|]. rewrite E'. split; [reflexivity|].
    apply (append_monomial _ _ _ (proj2 (Tok t)) Ap).
  - destruct (negate_sound (T s t) (Tok t)) as (p & Ce & ->). eapply coeff_change; [exact W|apply Tok|exact Ce|]. intros s' ev q K B E'. split; [exact K|]. exists q. split; [exact B|exact E'].
  - eapply term_call; [exact W|reflexivity|split; [exact A|apply Tok]|]. intros s' K E. split; [reflexivity|]. split; [exact K|exact E].
  - eapply poly_call; [exact W|unfold Poly_of_factor_nd; rewrite unit_eq; reflexivity|constructor; [split; [exact wONE|apply unit_map, Fok]|constructor]|].
    intros s' K E. split; [reflexivity|]. split; [exact K|exact E].
  - eapply poly_call; [exact W|reflexivity|constructor; [apply Tok|constructor]|]. intros s' K E. split; [reflexivity|]. split; [exact K|exact E].
  - destruct fs as [|f fs].
    + eapply poly_call; [exact W|reflexivity|constructor|]. intros s' K E. split; [reflexivity|]. split; [exact K|]. split; [reflexivity|exact E].
    + left. split; [|reflexivity]. cbn [map]. unfold Poly_of_factors_nd. cbn [append_each_factor_nd]. rewrite unit_eq. reflexivity.
  - destruct ts as [|t ts].
    + eapply poly_call; [exact W|reflexivity|constructor|]. intros s' K E. split; [reflexivity|]. split; [exact K|]. split; [reflexivity|exact E].
    + left. split; reflexivity.
  - eapply poly_call; [exact W|reflexivity|apply Pok|]. intros s' K E. split; [reflexivity|]. split; [exact K|exact E].
  - apply append_change; auto. intros s' ev q K Ap <-. split; [exact K|exact Ap].
  - assert (Wl : Forall wterm (map (T s) ts)) by (apply Forall_forall; intros x I; apply in_map_iff in I as (y & <- & _); apply Tok).
    destruct (merge_sound (P s p) (map (T s) ts) (Pok p) Wl) as [-> |(r & -> & Pr)]; [left; auto|]. eapply poly_call; [exact W|reflexivity| |].
    + eapply Permutation_Forall; [exact Pr|]. apply Forall_app. split; auto.
    + intros s' K E. split; [reflexivity|]. split; [exact K|]. rewrite E. apply (Permutation_map see_term) in Pr. rewrite map_app, map_map in Pr. exact Pr.
  - unfold factor_add_nd. rewrite !unit_eq. cbn [bind Poly_of_term]. apply units_make; auto. intros s' q K Ap <-. split; [reflexivity|]. split; [exact K|exact Ap].
  - unfold factor_sub_nd, Poly_of_factor_nd. rewrite unit_eq, minus_eq. cbn [bind]. apply units_make; auto. intros s' q K Ap <-. split; [reflexivity|]. split; [exact K|exact Ap].
  - unfold term_add_nd, Poly_of_term. cbn [bind]. apply append_make; auto. intros s' ev q K Ap E. split; [exact K|]. exists q. split; [exact Ap|exact E].
  - unfold term_sub_nd, Poly_of_term. cbn [bind]. destruct (negate_sound (T s u) (Tok u)) as (p & (Wp & ev & B & R) & ->). unfold final at 1, on_coeff. cbn [fst snd].
    destruct (snd p) as [?|e| | |]; try contradiction; subst ev; cbn [bind].
    + apply append_make; auto; [split; [exact Wp|apply Tok]|]. intros s' ev q K Ap E. split; [exact K|]. left. exists (pr (fst p)), q. split; [exact B|]. split; [exact Ap|exact E].
    + right. do 2 eexists. split; [reflexivity|]. split; [exact W|]. split; [apply kP0|]. right. exists e. eexists. split; [reflexivity|]. split; [exact B|reflexivity].
  - unfold poly_add_assign_nd. rewrite unit_eq. cbn [eval]. apply append_change; auto; [split; [exact wONE|apply unit_map, Fok]|]. intros s' ev q K Ap <-. split; [exact K|exact Ap].
  - unfold poly_sub_assign_nd. rewrite minus_eq. cbn [eval]. apply append_change; auto; [split; [exact wMINUS|apply unit_map, Fok]|]. intros s' ev q K Ap <-. split; [exact K|exact Ap].
Qed.
Lemma calls_do l : forall s, wobjects s -> Forall wargs l ->
  (nd_calls s l = UB /\ exists c, In c l /\ adds c = true) \/
  exists s' evs, nd_calls s l = Ok (s', evs) /\ wobjects s' /\ program_does (see s) l evs (see s').
Proof.
  induction l as [|c l IH]; intros s W A; cbn [nd_calls].
  - right. do 2 eexists. split; [reflexivity|]. split; [exact W|constructor].
  - inversion A; subst. destruct (call_does s c W) as [[-> E]|(s1 & ev & -> & W1 & D)]; auto.
    + left. split; [reflexivity|]. exists c. split; [left; reflexivity|exact E].
    + cbn [bind fst]. destruct (IH s1 W1) as [(-> & c' & I & E)|(s' & evs & -> & W' & D')]; auto.
      * left. split; [reflexivity|]. exists c'. split; [right; exact I|exact E].
      * right. cbn [bind fst snd]. do 2 eexists. split; [reflexivity|]. split; [exact W'|econstructor; eauto].
Qed.
(** What a call does with assertions it does without them. *)
Lemma make_keeps {A} s (m m' : res A) put s' : keeps m m' -> (x <- m ;; Ok (put x)) = Ok s' -> make s m' put = Ok (s', Done).
Proof. intros K E. destruct m as [x| | | |]; try discriminate. rewrite (K x eq_refl). cbn in *. congruence. Qed.
Lemma change_keeps {A} (p p' : outcome A) put s' : okeeps p p' -> (x <- final p ;; Ok (put x)) = Ok s' -> change p' put = Ok (s', Done).
Proof. intros K E. destruct p as [x [[]| | | |]]; cbn in E; try discriminate. rewrite (K x eq_refl). cbn in *. congruence. Qed.
Lemma same_call s c s' : run_call s c = Ok s' -> nd_call s c = Ok (s', Done).
Proof.
  destruct c; cbn [run_call nd_call]; try (intros [= <-]; reflexivity).
  all: try (apply make_keeps; first [apply Term_of_factor_keeps|apply Term_of_keeps|apply Term_of_vector_keeps|apply factor_mul_keeps|apply term_mul_factor_keeps|apply term_mul_keeps
    |apply Poly_of_factor_keeps|apply okeeps_final, append_each_factor_keeps|apply okeeps_final, append_each_keeps|apply factor_add_keeps|apply factor_sub_keeps|apply term_add_keeps|apply term_sub_keeps|apply keeps_refl]).
  all: apply change_keeps; first [apply appendFactor_keeps|apply term_mul_assign_keeps|apply negate_term_keeps|apply appendTerm_keeps|apply poly_add_assign_keeps|apply poly_sub_assign_keeps].
Qed.

(** What is thrown *)
Lemma becomes_event old n d ev q : becomes old n d ev q -> ev = Done \/ ev = Caught DivideByZero /\ d = 0 \/ ev = Caught OutOfRange.
Proof. intros []; auto. Qed.
Lemma appends_event p x ev q : appends p x ev q -> ev = Done \/ ev = Caught DivideByZero /\ (snd (sc x) = 0 \/ exists y, In y p /\ snd (sc y) = 0) \/ ev = Caught OutOfRange.
Proof.
  intros [|l y r e c E S B]; auto. destruct (becomes_event _ _ _ _ _ B) as [-> |[[-> H]| ->]]; auto. right. left. split; [reflexivity|].
  apply Z.eq_mul_0 in H as [H|H]; auto. right. exists y. split; [subst; apply in_elt|exact H].
Qed.
Lemma call_event s c ev s' : pcall_does s c ev s' -> ev = Done \/ PolyCalls.computes c = true /\
  (ev = Caught OutOfRange \/ ev = Caught DivideByZero /\ ((exists a, snd (sc (sT s a)) = 0) \/ exists a t, In t (sP s a) /\ snd (sc t) = 0)).
Proof.
  destruct c; cbn [pcall_does PolyCalls.computes]; try (intros [H _]; left; exact H).
  all: intros (_ & H).
  all: try (destruct H as (q & B & _); apply becomes_event in B as [H|[[H Z]|H]]; auto; right; split; auto; right; split; auto; left).
  all: try (apply Z.eq_mul_0 in Z as [Z|Z]; eauto).
  all: try (eauto; fail).
  all: try (destruct H as (r & H & _)).
  all: try (apply appends_event in H as [H|[[H [Z|(y & I & Z)]]|H]]; auto; try discriminate Z; right; split; auto; right; split; auto; first [left; eauto; fail|right; eauto; fail|idtac]).
  all: try (destruct I as [<-|[]]; left; eauto; fail).
  destruct H as [(q & r & M & H & _)|(e & q & E & M & _)].
  - inversion M as [? L| | |]; subst. apply appends_event in H as [H|[[H [Z|(y & I & Z)]]|H]]; auto; right; split; auto; right; split; auto; left.
    + cbn [sc] in Z. destruct L as (_ & _ & g & G & _ & E2). rewrite Z in E2. exists u. destruct G; subst g; lia.
    + destruct I as [<-|[]]. eauto.
  - apply becomes_event in M as [H|[[H Z]|H]]; auto. right. split; auto. right. split; auto. left. eauto.
Qed.
Lemma call_throws s c s' ev : wobjects s -> wargs c -> nd_call s c = Ok (s', ev) -> ev = Done \/ PolyCalls.computes c = true /\ (ev = Caught DivideByZero \/ ev = Caught OutOfRange).
Proof.
  intros W A E. destruct (call_does s c W A) as [[U _]|(s1 & e & E1 & _ & D)]; [congruence|]. rewrite E in E1. injection E1 as <- <-.
  apply call_event in D as [D|(C & [D|[D _]])]; auto.
Qed.
Lemma call_zero s c s' : (forall a, snd (pr (coeff (T s a))) <> 0) -> (forall a t, In t (P s a) -> snd (pr (coeff t)) <> 0) ->
  wobjects s -> wargs c -> nd_call s c <> Ok (s', Caught DivideByZero).
Proof.
  intros HT HP W A E. destruct (call_does s c W A) as [[U _]|(s1 & e & E1 & _ & D)]; [congruence|]. rewrite E in E1. injection E1 as <- <-.
  apply call_event in D as [D|(_ & [D|[_ [(a & Z)|(a & t & I & Z)]]])]; try discriminate.
  - apply (HT a). exact Z.
  - cbn [see sP] in I. apply in_map_iff in I as (x & <- & I). apply (HP a x I). exact Z.
Qed.
