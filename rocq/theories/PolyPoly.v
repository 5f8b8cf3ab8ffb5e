(** Polynomials: appendTerm, appendTerms, printing. *)
From Coq Require Import Ascii String QArith Sorted List Permutation.
From Verif Require Import Base IntModel IntSpec IntBasics FracModel FracSpec FracProofs FracIO IOModel IOSpec IOProofs
  ElemModel ElemSpec ElemProofs PolyModel PolySpec PolyProofs PolyTerms.
From Verif Require PropsInt PropsFrac.
Local Open Scope Z_scope.
Local Open Scope list_scope.

(** *** appendTerm *)
Lemma find_place_ok p x : poly_ok p -> term_ok x -> exists a b, find_place p x = Ok (a, b) /\ p = a ++ b /\
  Forall (fun t => term_before t x) a /\ match b with [] => True | t :: _ => ~ term_before t x end.
Proof.
  intros Hp Hx. induction Hp as [|t p Ht Hp IH]; cbn [find_place].
  - exists [], []. auto.
  - destruct (term_lt_ok t x) as (b & -> & Hb); [apply Ht|apply Hx|]. cbn [bind]. destruct b.
    + destruct IH as (a & b & -> & -> & H1 & H2). cbn [bind]. exists (t :: a), b. splits; auto. constructor; auto. apply Hb; auto.
    + exists [], (t :: p). splits; auto. rewrite <- Hb. discriminate.
Qed.
Lemma add_coeff t x : reduced (coeff t) -> reduced (coeff x) ->
  (add_safe t x /\ exists c, F_add_assign (coeff t) (Some (coeff x)) = (c, Ok tt) /\ reduced c /\ (Fval c == Fval (coeff t) + Fval (coeff x))%Q) \/
  (~ add_safe t x /\ snd (F_add_assign (coeff t) (Some (coeff x))) = Abort).
Proof.
  intros Rt Rx. assert (H := F_add_assign_leaves (coeff t) (Some (coeff x)) Rt ltac:(congruence)). cbn [rd] in H.
  destruct H as [(S & c & E & R & V)|(S & E)]; [left|right; auto]. split; auto. exists c. splits; auto. rewrite V. unfold Fval.
  apply ratio_add; apply Z.neq_sym, Z.lt_neq; (apply Rt || apply Rx).
Qed.
(** the four things appendTerm can do *)
Inductive appended (p : Poly) (x : Term) : outcome Poly -> Prop :=
| ap_end : Forall (fun t => term_before t x) p -> appended p x (p, UB)
| ap_abort a t b p' : p = a ++ t :: b -> ~ term_before t x -> factors t = factors x -> ~ add_safe t x -> appended p x (p', Abort)
| ap_add a t b c : p = a ++ t :: b -> Forall (fun t => term_before t x) a -> ~ term_before t x -> factors t = factors x -> add_safe t x ->
    reduced c -> (Fval c == Fval (coeff t) + Fval (coeff x))%Q -> appended p x (a ++ mkTerm c (factors x) :: b, Ok tt)
| ap_insert a t b : p = a ++ t :: b -> Forall (fun t => term_before t x) a -> ~ term_before t x -> factors t <> factors x ->
    appended p x (a ++ x :: t :: b, Ok tt).
Lemma appendTerm_cases p x : poly_ok p -> term_ok x -> appended p x (appendTerm p x).
Proof.
  intros Hp Hx. unfold appendTerm. destruct (find_place_ok p x Hp Hx) as (a & b & -> & E & H1 & H2). cbn [eval fst snd].
  destruct b as [|t b].
  - apply ap_end. subst p. rewrite app_nil_r. auto.
  - assert (Ht : term_ok t). { unfold poly_ok in Hp. rewrite E in Hp. apply Forall_app in Hp as [_ Hp]. inversion Hp; auto. }
    destruct (term_eq_ok t x) as (e & -> & He); [apply Ht|apply Hx|]. cbn [eval]. destruct e.
    + assert (F : factors t = factors x) by (apply He; auto).
      destruct (add_coeff t x) as [(S & c & Ec & R & V)|(S & Ec)]; [apply Ht|apply Hx| |].
      * unfold on_coeff. rewrite Ec. cbn [fst snd]. rewrite F. apply (ap_add p x a t b); auto.
      * destruct (F_add_assign (coeff t) (Some (coeff x))) as [c r]. cbn [snd] in Ec. subst r. cbn [on_coeff fst snd].
        apply (ap_abort p x a t b); auto.
    + unfold done. apply (ap_insert p x a t b); auto. intros F. apply He in F. discriminate.
Qed.
Lemma pval_app rho a b : (pval rho (a ++ b) == pval rho a + pval rho b)%Q.
Proof.
  induction a as [|t a IH]; [symmetry; apply Qplus_0_l|]. cbn [app pval fold_right]. fold (pval rho (a ++ b)) (pval rho a). rewrite IH. ring.
Qed.
Lemma appended_ok p x q : poly_ok p -> term_ok x -> appended p x (q, Ok tt) ->
  poly_ok q /\ forall rho, (pval rho q == pval rho p + tval rho x)%Q.
Proof.
  intros Hp Hx H. inversion H as [| |a t b c E H1 H2 F S R V Eq|a t b E H1 H2 F Eq]; subst; apply Forall_app in Hp as [Ha Hb]; inversion Hb as [|? ? Ht Hb2]; subst.
  - split.
    + apply Forall_app. split; auto. constructor; auto. split; auto. apply Hx.
    + intros rho. rewrite !pval_app. cbn [pval fold_right]. fold (pval rho b). unfold tval. cbn [coeff factors]. rewrite V, F. ring.
  - split.
    + apply Forall_app. split; auto.
    + intros rho. rewrite !pval_app. cbn [pval fold_right]. fold (pval rho b). ring.
Qed.

(** *** The terms stay in ascending order *)
Lemma FOP_app {A} (R : A -> A -> Prop) a b : ForallOrdPairs R (a ++ b) <->
  (ForallOrdPairs R a /\ ForallOrdPairs R b /\ forall x y, In x a -> In y b -> R x y).
Proof.
  induction a as [|x a IH]; cbn [app].
  - split; [intros H; splits; auto; [constructor|intros ? ? []]|tauto].
  - split.
    + inversion 1 as [|? ? H1 H2]; subst. apply IH in H2 as (H3 & H4 & H5). apply Forall_app in H1 as [H6 H7]. rewrite Forall_forall in H7. splits; auto; [constructor; auto|].
      intros u v [<-|Hu] Hv; auto.
    + intros (H1 & H2 & H3). inversion H1; subst. constructor.
      * apply Forall_app. split; auto. apply Forall_forall. intros y Hy. apply H3; auto. left; auto.
      * apply IH. splits; auto. intros u v Hu Hv. apply H3; auto. right; auto.
Qed.
Lemma FOP_cons {A} (R : A -> A -> Prop) x l : ForallOrdPairs R (x :: l) <-> Forall (R x) l /\ ForallOrdPairs R l.
Proof. split; [inversion 1; auto|intros [? ?]; constructor; auto]. Qed.
Lemma before_factors x x' y : factors x = factors x' -> (term_before x y <-> term_before x' y) /\ (term_before y x <-> term_before y x').
Proof. intros E. unfold term_before. rewrite E. tauto. Qed.
Lemma appended_ascending p x q : poly_ok p -> term_ok x -> ascending p -> appended p x (q, Ok tt) -> ascending q.
Proof.
  intros Hp Hx Ap H. inversion H as [| |a t b c E H1 H2 F S R V Eq|a t b E H1 H2 F Eq]; subst; apply Forall_app in Hp as [Ha Hb]; inversion Hb as [|? ? Ht Hb2]; subst;
    apply FOP_app in Ap as (A1 & A2 & A3); apply FOP_cons in A2 as [A2 A4].
  - apply FOP_app. splits; auto.
    + apply FOP_cons. split; auto. eapply Forall_impl; [|exact A2]. intros u Hu.
      apply (before_factors t (mkTerm c (factors x)) u F) in Hu. exact Hu.
    + intros u v Iu [<-|Iv]; [|apply A3; auto; right; auto].
      apply (before_factors t (mkTerm c (factors x)) u F). apply A3; auto. left; auto.
  - assert (Bxt : term_before x t).
    { destruct (term_before_dec x t) as [?|N]; auto; [apply Hx|apply Ht|]. destruct F. apply neither_before; auto; [apply Ht|apply Hx]. }
    assert (Bxb : Forall (term_before x) (t :: b)).
    { constructor; auto. apply Forall_forall. intros u Hu. rewrite Forall_forall in A2, Hb2.
      destruct (term_before_dec x u) as [?|N]; auto; [apply Hx|apply Hb2, Hu|].
      exfalso. apply (not_before_trans t x u); auto; [apply Ht|apply Hx|apply Hb2, Hu]. }
    apply FOP_app. splits; auto.
    + apply FOP_cons. split; auto. apply FOP_cons; auto.
    + rewrite Forall_forall in H1. intros u v Iu [<-|Iv]; auto.
Qed.
Lemma appendTerm_ascending p x q : poly_ok p -> term_ok x -> ascending p -> appendTerm p x = (q, Ok tt) -> ascending q.
Proof. intros Hp Hx Ap E. apply (appended_ascending p x); auto. rewrite <- E. apply appendTerm_cases; auto. Qed.
(** in ascending order every combination of factors occurs once *)
Lemma ascending_distinct p : ascending p -> NoDup (map factors p).
Proof.
  induction 1 as [|t p H1 H2 IH]; cbn; constructor; auto. intros I. apply in_map_iff in I as (u & E & I).
  rewrite Forall_forall in H1. specialize (H1 u I). apply (before_factors u t t E) in H1. eapply term_irrefl; eauto.
Qed.
Lemma append_each_ok l : forall p q, poly_ok p -> Forall term_ok l -> append_each p l = (q, Ok tt) ->
  poly_ok q /\ (forall rho, (pval rho q == pval rho p + pval rho l)%Q) /\ (ascending p -> ascending q).
Proof.
  induction l as [|x l IH]; intros p q Hp Hl; cbn [append_each].
  - unfold done. intros [= <-]. splits; auto. intros rho. symmetry. apply Qplus_0_r.
  - inversion Hl; subst. pose proof (appendTerm_cases p x Hp ltac:(auto)) as C. destruct (appendTerm p x) as [p1 r] eqn:E.
    destruct r; cbn [andthen]; try discriminate. destruct a. intros E2.
    destruct (appended_ok p x p1) as [Hp1 V1]; auto. destruct (IH p1 q) as (Q1 & Q2 & Q3); auto. splits; auto.
    + intros rho. rewrite Q2, V1. cbn [pval fold_right]. fold (pval rho l). ring.
    + intros A. apply Q3. apply (appended_ascending p x); auto.
Qed.

(** *** appendTerms *)
Lemma none_less_ok x l : term_ok x -> poly_ok l -> exists b, none_less x l = Ok b /\ (b = true <-> Forall (fun y => ~ term_before y x) l).
Proof.
  intros Hx. induction 1 as [|y l Hy Hl IH]; cbn [none_less].
  - exists true. split; auto. split; auto.
  - destruct (term_lt_ok y x) as (b & -> & Hb); [apply Hy|apply Hx|]. cbn [bind]. destruct b.
    + exists false. split; auto. split; [discriminate|]. inversion 1; subst. tauto.
    + destruct IH as (b & -> & Hb2). exists b. split; auto. rewrite Hb2. assert (~ term_before y x) by (rewrite <- Hb; discriminate).
      split; [constructor; auto|inversion 1; auto].
Qed.
Lemma is_sorted_ok l : poly_ok l -> exists b, is_sorted l = Ok b /\ (b = true <-> merge_sorted l).
Proof.
  induction 1 as [|x l Hx Hl IH]; cbn [is_sorted].
  - exists true. split; auto. split; auto. constructor.
  - destruct (none_less_ok x l Hx Hl) as (b & -> & Hb). cbn [bind]. unfold merge_sorted in *. destruct b.
    + destruct IH as (b & -> & Hb2). exists b. split; auto. rewrite FOP_cons, Hb2. tauto.
    + exists false. split; auto. rewrite FOP_cons. split; [discriminate|]. intros [H _]. apply Hb in H. discriminate.
Qed.
Lemma merge_loop_ok fuel : forall a b, poly_ok a -> poly_ok b -> (length a + length b < fuel)%nat ->
  exists r, merge_loop fuel a b = Ok r /\ Permutation (a ++ b) r.
Proof.
  induction fuel as [|fuel IH]; intros a b Ha Hb L; [lia|]. cbn [merge_loop].
  destruct a as [|x a]; [exists b; auto|]. destruct b as [|y b]; [exists (x :: a); rewrite app_nil_r; auto|].
  inversion Ha; subst. inversion Hb; subst. destruct (term_lt_ok y x) as (l & -> & _); [apply H3|apply H1|]. cbn [bind length] in *. destruct l.
  - destruct (IH (x :: a) b) as (r & -> & P); auto; [cbn; lia|]. exists (y :: r). split; auto.
    etransitivity; [symmetry; apply Permutation_middle|]. constructor. exact P.
  - destruct (IH a (y :: b)) as (r & -> & P); auto; [cbn; lia|]. exists (x :: r). split; auto. cbn [app]. constructor. exact P.
Qed.
Lemma pval_perm rho p q : Permutation p q -> (pval rho p == pval rho q)%Q.
Proof.
  induction 1; cbn [pval fold_right] in *; fold (pval rho) in *.
  - reflexivity.
  - fold (pval rho l) (pval rho l') in *. rewrite IHPermutation. reflexivity.
  - fold (pval rho l). ring.
  - etransitivity; eauto.
Qed.
Lemma appendTerms_ok p l : poly_ok p -> poly_ok l ->
  (merge_sorted p /\ merge_sorted l -> exists r, appendTerms p l = Ok r /\ Permutation (p ++ l) r) /\
  (~ (merge_sorted p /\ merge_sorted l) -> appendTerms p l = UB).
Proof.
  intros Hp Hl. unfold appendTerms. destruct (is_sorted_ok p Hp) as (b1 & -> & H1). destruct (is_sorted_ok l Hl) as (b2 & -> & H2). cbn [bind].
  rewrite <- H1, <- H2. destruct b1, b2; cbn [andb]; split; intros H; auto; try (destruct H; congruence); try (exfalso; apply H; auto).
  apply merge_loop_ok; auto.
Qed.
Lemma merge_loop_perm fuel : forall a b r, merge_loop fuel a b = Ok r -> Permutation (a ++ b) r.
Proof.
  induction fuel as [|fuel IH]; intros a b r; [discriminate|]. cbn [merge_loop].
  destruct a as [|x a]; [intros [= <-]; auto|]. destruct b as [|y b]; [intros [= <-]; rewrite app_nil_r; auto|].
  destruct (term_lt y x) as [l| | | |]; cbn [bind]; try discriminate. destruct l.
  - destruct (merge_loop fuel (x :: a) b) as [r'| | | |] eqn:E; cbn [bind]; try discriminate. intros [= <-].
    etransitivity; [symmetry; apply Permutation_middle|]. constructor. apply IH, E.
  - destruct (merge_loop fuel a (y :: b)) as [r'| | | |] eqn:E; cbn [bind]; try discriminate. intros [= <-].
    cbn [app]. constructor. apply IH, E.
Qed.
(** merging lists of terms that are not before each other both ways gives a sorted list *)
Lemma merge_loop_sorted fuel : forall a b r, poly_ok a -> poly_ok b -> merge_sorted a -> merge_sorted b ->
  (forall x y, In x a -> In y b -> term_before y x -> ~ term_before x y) ->
  merge_loop fuel a b = Ok r -> merge_sorted r.
Proof.
  unfold merge_sorted.
  induction fuel as [|fuel IH]; intros a b r Ha Hb Sa Sb As; cbn [merge_loop]; [discriminate|].
  destruct a as [|x a]; [intros [= <-]; auto|]. destruct b as [|y b]; [intros [= <-]; auto|].
  inversion Ha as [|? ? Hx Ha2]; subst. inversion Hb as [|? ? Hy Hb2]; subst.
  pose proof Sa as Sa0. pose proof Sb as Sb0. apply FOP_cons in Sa as [S1 S2]. apply FOP_cons in Sb as [S3 S4].
  rewrite Forall_forall in S1, S3. assert (Ia : forall z, In z a -> term_ok z) by (apply Forall_forall; auto).
  assert (Ib : forall z, In z b -> term_ok z) by (apply Forall_forall; auto).
  destruct (term_lt_ok y x) as (l & -> & Hl); [apply Hy|apply Hx|]. cbn [bind]. destruct l.
  - destruct (merge_loop fuel (x :: a) b) as [r'| | | |] eqn:E; cbn [bind]; try discriminate. intros [= <-].
    assert (NB : ~ term_before x y) by (apply As; [left; auto|left; auto|apply Hl; auto]).
    apply FOP_cons. split.
    + apply Forall_forall. intros z Hz. apply (Permutation_in _ (Permutation_sym (merge_loop_perm _ _ _ _ E))) in Hz. cbn [app In] in Hz. rewrite in_app_iff in Hz.
      destruct Hz as [<-|[Hz|Hz]]; auto.
      apply (not_before_trans z x y); auto; [apply Ia, Hz|apply Hx|apply Hy].
    + apply (IH (x :: a) b); auto. intros u v Iu Iv. apply As; auto. right; auto.
  - destruct (merge_loop fuel a (y :: b)) as [r'| | | |] eqn:E; cbn [bind]; try discriminate. intros [= <-].
    assert (NB : ~ term_before y x) by (rewrite <- Hl; discriminate).
    apply FOP_cons. split.
    + apply Forall_forall. intros z Hz. apply (Permutation_in _ (Permutation_sym (merge_loop_perm _ _ _ _ E))) in Hz. rewrite in_app_iff in Hz.
      destruct Hz as [Hz|[<-|Hz]]; auto.
      apply (not_before_trans z y x); auto; [apply Ib, Hz|apply Hy|apply Hx].
    + apply (IH a (y :: b)); auto. intros u v Iu Iv. apply As; auto. right; auto.
Qed.
Lemma appendTerms_sorted p l r : poly_ok p -> poly_ok l ->
  (forall x y, In x p -> In y l -> term_before y x -> ~ term_before x y) -> appendTerms p l = Ok r -> merge_sorted r.
Proof.
  intros Hp Hl As. unfold appendTerms. destruct (is_sorted_ok p Hp) as (b1 & -> & H1). destruct (is_sorted_ok l Hl) as (b2 & -> & H2). cbn [bind].
  destruct b1, b2; cbn [andb]; try discriminate. apply merge_loop_sorted; auto; [apply H1|apply H2]; auto.
Qed.

(** *** Printing *)
Lemma put_plain o s : owidth o = 0 -> obuf (put o s) = obuf o ++ s /\ owidth (put o s) = 0.
Proof. destruct o as [b w f]. cbn. intros ->. split; reflexivity. Qed.
Lemma Int_print_plain x o : canonical x -> owidth o = 0 -> exists s, canonical_text s (val x) /\ obuf (Int_print o x) = obuf o ++ s /\ owidth (Int_print o x) = 0.
Proof.
  intros Cx Ho. destruct o as [b w f]. cbn in Ho. subst w.
  destruct (Int_print_text x b f) as (s & H & E); auto using canonical_wf.
  { intros V. rewrite (canonical_neg_eq _ Cx). lia. }
  rewrite E. eauto.
Qed.
Lemma equals_one p : canonical p -> exists b, equals_int32 p 1 = Ok b /\ (b = true <-> shown_as_one p).
Proof.
  intros Cp. rewrite PropsInt.C22_equals_exact by (auto; unfold INT32_MIN, INT32_MAX; lia).
  eexists. split; [reflexivity|]. change (Z.abs 1 <? 10 ^ 9) with true. rewrite andb_true_r, Z.eqb_eq, Z.mul_1_l.
  assert (L : (length (bins p) > 0)%nat). { destruct (canonical_wf p Cp) as [N _]. destruct (bins p); cbn; [contradiction|lia]. }
  split.
  - intros E. exists (length (bins p) - 1)%nat. rewrite E. f_equal. lia.
  - intros (n & E). rewrite E. f_equal. f_equal.
    assert (A : aval p = pw n). { rewrite <- abs_val by auto using canonical_wf. rewrite E. rewrite Z.abs_eq by (apply Z.pow_nonneg; lia). rewrite Z.pow_mul_r by lia. reflexivity. }
    pose proof (bins_val_bound (bins p) ltac:(apply (canonical_wf p Cp))) as Hb. fold (aval p) in Hb. rewrite A in Hb.
    destruct (Nat.eq_dec (length (bins p)) 1) as [L1|L1].
    + rewrite L1 in *. destruct n as [|n]; [lia|]. pose proof (pw_ge_S n). change (pw 1) with B in Hb. lia.
    + pose proof (trimmed_lower (bins p) ltac:(apply (canonical_wf p Cp)) (canonical_trimmed p Cp) ltac:(lia)) as Hl. fold (aval p) in Hl. rewrite A in Hl.
      assert (n < length (bins p))%nat. { destruct (Nat.lt_ge_cases n (length (bins p))) as [|G]; auto. apply pw_le in G. lia. }
      assert (length (bins p) - 1 <= n)%nat; [|lia].
      destruct (Nat.lt_ge_cases n (length (bins p) - 1)) as [G|]; auto. exfalso.
      assert (S n <= length (bins p) - 1)%nat as G2 by lia. apply pw_le in G2. rewrite pw_S in G2. pose proof (pw_pos n). nia.
Qed.
Lemma factor_print_ok f o : factor_ok f -> owidth o = 0 -> exists o' s, factor_print o f = Ok o' /\ written f s /\ obuf o' = obuf o ++ s /\ owidth o' = 0.
Proof.
  intros Hf Ho. unfold factor_print. destruct (equals_one (power f) Hf) as (b & -> & Hb). cbn [bind]. destruct b.
  - destruct (put_plain o (fid f) Ho) as [E1 E2]. do 2 eexists. split; [reflexivity|]. splits; eauto. apply wr_bare, Hb; auto.
  - destruct (put_plain o (fid f) Ho) as [E1 E2]. destruct (put_plain _ ["^"%char] E2) as [E3 E4].
    destruct (Int_print_plain (power f) _ Hf E4) as (s & Hs & E5 & E6). do 2 eexists. split; [reflexivity|]. split; [|split].
    + apply (wr_pow f s); auto. rewrite <- Hb. discriminate.
    + rewrite E5, E3, E1, <- !app_assoc. reflexivity.
    + exact E6.
Qed.
Lemma print_factors_ok l : forall o, Forall factor_ok l -> owidth o = 0 -> exists o' ss, print_factors o l = Ok o' /\ Forall2 written l ss /\
  obuf o' = obuf o ++ flat_map (fun s => times_sep ++ s) ss /\ owidth o' = 0.
Proof.
  induction l as [|f l IH]; intros o Hl Ho; cbn [print_factors].
  - exists o, []. splits; auto. cbn. rewrite app_nil_r. auto.
  - inversion Hl; subst. destruct (put_plain o TIMES Ho) as [E1 E2]. destruct (factor_print_ok f _ ltac:(eassumption) E2) as (o1 & s & -> & Hs & E3 & E4). cbn [bind].
    destruct (IH o1 ltac:(auto) E4) as (o2 & ss & -> & Hss & E5 & E6). exists o2, (s :: ss). splits; auto.
    cbn [flat_map]. rewrite E5, E3, E1, <- !app_assoc. reflexivity.
Qed.
Lemma join_flat sep s ss : join sep (s :: ss) = s ++ flat_map (fun s => sep ++ s) ss.
Proof.
  revert s. induction ss as [|s' ss IH]; intros s; [cbn; rewrite app_nil_r; auto|].
  change (join sep (s :: s' :: ss)) with (s ++ sep ++ join sep (s' :: ss)). rewrite IH. cbn [flat_map]. rewrite <- !app_assoc. reflexivity.
Qed.
Lemma Frac_print_plain f o : reduced f -> owidth o = 0 -> exists s, frac_text f s /\ obuf (Frac_print o f) = obuf o ++ s /\ owidth (Frac_print o f) = 0.
Proof.
  intros Rf Ho. destruct o as [b w fl]. cbn in Ho. subst w. destruct (Frac_print_text f b fl Rf) as (st & sb & H1 & H2 & ->).
  eexists. splits; [exists st, sb; splits; eauto|reflexivity|reflexivity].
Qed.
Lemma F_eq_ok f k : reduced f -> INT32_MIN <= k <= INT32_MAX -> exists c b, Frac_of_int k = Ok c /\ F_eq f c = Ok b /\ (b = true <-> (Fval f == inject_Z k)%Q).
Proof.
  intros Rf Hk. destruct (Frac_of_int_ok k Hk) as (c & E & Rc & Vc). exists c.
  destruct (PropsFrac.C34_comparisons f c Rf Rc) as (e & l & m & E1 & _ & _ & _ & _ & _ & H & _).
  exists e. splits; auto. rewrite <- Vc. exact H.
Qed.
Lemma term_print_ok t o : term_ok t -> owidth o = 0 -> exists o' s, term_print o t = Ok o' /\ term_written t s /\ obuf o' = obuf o ++ s /\ owidth o' = 0.
Proof.
  intros [Rt Mt] Ho. unfold term_print.
  destruct (F_eq_ok (coeff t) 0 Rt) as (c0 & z & -> & Ez & Hz); [cbv; split; discriminate|].
  destruct (F_eq_ok (coeff t) 1 Rt) as (c1 & u & -> & Eu & Hu); [cbv; split; discriminate|]. cbn [bind].
  rewrite Ez, Eu. cbn [bind]. clear Ez Eu. change (inject_Z 0) with 0%Q in Hz. change (inject_Z 1) with 1%Q in Hu.
  destruct z.
  - destruct (put_plain o ["0"%char] Ho) as [E1 E2]. do 2 eexists. split; [reflexivity|]. splits; eauto. apply tw_zero, Hz; auto.
  - assert (Nz : ~ (Fval (coeff t) == 0)%Q) by (rewrite <- Hz; discriminate).
    destruct (Nat.eqb_spec (length (factors t)) 0) as [L|L].
    + assert (F : factors t = []) by (destruct (factors t); auto; discriminate). destruct u.
      * destruct (put_plain o ["1"%char] Ho) as [E1 E2]. do 2 eexists. split; [reflexivity|]. splits; eauto. apply tw_unit; auto. apply Hu; auto.
      * destruct (Frac_print_plain (coeff t) o Rt Ho) as (s & Hs & E1 & E2). do 2 eexists. split; [reflexivity|]. splits; eauto.
        apply (tw_coeff t s []); auto; [rewrite <- Hu; discriminate|]. rewrite F. constructor.
    + pose proof (map_ok_factors _ Mt) as Hf. destruct u.
      * assert (F : factors t <> []) by (intros F; rewrite F in L; contradiction).
        destruct (map snd (factors t)) as [|f l] eqn:E; [destruct (factors t); [contradiction|discriminate]|]. inversion Hf; subst.
        destruct (factor_print_ok f o ltac:(auto) Ho) as (o1 & s & -> & Hs & E1 & E2). cbn [bind].
        destruct (print_factors_ok l o1 ltac:(auto) E2) as (o2 & ss & -> & Hss & E3 & E4). exists o2, (join times_sep (s :: ss)). splits; auto.
        -- apply tw_one; auto; [apply Hu; auto|]. rewrite E. constructor; auto.
        -- rewrite E3, E1, join_flat, <- app_assoc. reflexivity.
      * destruct (Frac_print_plain (coeff t) o Rt Ho) as (s & Hs & E1 & E2).
        destruct (print_factors_ok _ _ Hf E2) as (o2 & ss & -> & Hss & E3 & E4). exists o2, (join times_sep (s :: ss)). splits; auto.
        -- apply (tw_coeff t s ss); auto. rewrite <- Hu. discriminate.
        -- rewrite E3, E1, join_flat, <- app_assoc. reflexivity.
Qed.
Lemma print_terms_ok l : forall o, poly_ok l -> owidth o = 0 -> exists o' ss, print_terms o l = Ok o' /\ Forall2 term_written l ss /\
  obuf o' = obuf o ++ flat_map (fun s => plus_sep ++ s) ss /\ owidth o' = 0.
Proof.
  induction l as [|t l IH]; intros o Hl Ho; cbn [print_terms].
  - exists o, []. splits; auto. cbn. rewrite app_nil_r. auto.
  - inversion Hl; subst. destruct (put_plain o PLUS Ho) as [E1 E2]. destruct (term_print_ok t _ ltac:(eassumption) E2) as (o1 & s & -> & Hs & E3 & E4). cbn [bind].
    destruct (IH o1 ltac:(auto) E4) as (o2 & ss & -> & Hss & E5 & E6). exists o2, (s :: ss). splits; auto.
    cbn [flat_map]. rewrite E5, E3, E1, <- !app_assoc. reflexivity.
Qed.
Lemma poly_print_ok p o : poly_ok p -> owidth o = 0 -> exists o' ss, poly_print o p = Ok o' /\ Forall2 term_written p ss /\
  obuf o' = obuf o ++ join plus_sep ss /\ owidth o' = 0.
Proof.
  intros Hp Ho. destruct p as [|t l]; cbn [poly_print].
  - exists o, []. splits; auto. cbn. rewrite app_nil_r. auto.
  - inversion Hp; subst. destruct (term_print_ok t o ltac:(auto) Ho) as (o1 & s & -> & Hs & E1 & E2). cbn [bind].
    destruct (print_terms_ok l o1 ltac:(auto) E2) as (o2 & ss & -> & Hss & E3 & E4). exists o2, (s :: ss). splits; auto.
    rewrite E3, E1, join_flat, <- app_assoc. reflexivity.
Qed.
