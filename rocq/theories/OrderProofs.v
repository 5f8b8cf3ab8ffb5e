(** The order of evaluation. *)
From Coq Require Import ZArith Lia ZifyBool.
From Verif Require Import Base IntModel IntSpec IntBasics PropsInt IntCalls FracModel FracSpec FracProofs PropsFrac FracHistory ElemModel VecModel MatModel
  ReleaseModel PropsRelease FracReleaseModel PropsFracRelease ContReleaseModel ReleaseCallsProofs FracReleaseCallsProofs OrderModel OrderSpec.
Local Open Scope list_scope.
Local Open Scope Z_scope.

Lemma res_cases {A} (m : res A) : (exists a, m = Ok a) \/ exists x, m = failed x.
Proof. destruct m as [a|e| | |]; [left; eauto|right; exists (Threw e); auto|right; exists Asserted; auto|right; exists Undefined; auto|right; exists Endless; auto]. Qed.
Lemma failed_not_ok {A} x (a : A) : failed x <> Ok a.
Proof. destruct x; discriminate. Qed.
Lemma failed_inj {A} x y : @failed A x = failed y -> x = y.
Proof. destruct x, y; cbn; congruence. Qed.
Lemma bind_failed {A C} x (k : A -> res C) : (a <- failed x ;; k a) = failed x.
Proof. destruct x; reflexivity. Qed.
Section General.
Context {A C : Type}.
Lemma step_in_order (e e' : expr A) : step e e' -> in_order e = in_order e'.
Proof. induction 1 as [f a b c H|f l l' r H IH|f l r r' H IH]; cbn [in_order bind]; auto; [rewrite IH; reflexivity|]. destruct (in_order l); cbn [bind]; auto. rewrite IH. reflexivity. Qed.
(** Left to right is one of the orders. *)
Lemma progress (e : expr A) : (exists a, e = Leaf a) \/ (exists e', step e e' /\ in_order e = in_order e') \/ (exists x, stops e x /\ in_order e = failed x).
Proof.
  induction e as [a|f l IHl r IHr]; [left; eauto|]. right.
  destruct IHl as [(a & ->)|[(l' & H & E)|(x & H & E)]].
  - destruct IHr as [(b & ->)|[(r' & H & E)|(x & H & E)]].
    + destruct (res_cases (f a b)) as [(c & E)|(x & E)]; [left|right]; [exists (Leaf c)|exists x]; (split; [constructor; auto|exact E]).
    + left. exists (Node f (Leaf a) r'). split; [constructor; auto|]. cbn [in_order bind]. rewrite E. reflexivity.
    + right. exists x. split; [apply t_right; auto|]. cbn [in_order bind]. rewrite E. apply bind_failed.
  - left. exists (Node f l' r). split; [apply s_left; auto|]. cbn [in_order]. rewrite E. reflexivity.
  - right. exists x. split; [apply t_left; auto|]. cbn [in_order]. rewrite E. apply bind_failed.
Qed.
Fixpoint nodes (e : expr A) : nat := match e with Leaf _ => 0 | Node _ l r => 1 + nodes l + nodes r end.
Lemma step_nodes e e' : step e e' -> (nodes e' < nodes e)%nat.
Proof. induction 1; cbn [nodes] in *; lia. Qed.
Lemma left_to_right (k : A -> A -> res C) : forall n l r, (nodes l + nodes r < n)%nat -> may_give k (l, r) (call_in_order (l, r) k).
Proof.
  induction n as [|n IH]; intros l r Hn; [lia|]. unfold call_in_order in *. cbn [fst snd] in *.
  destruct (progress l) as [(a & ->)|[(l' & H & E)|(x & H & E)]].
  - destruct (progress r) as [(b & ->)|[(r' & H & E)|(x & H & E)]]; cbn [in_order bind].
    + constructor.
    + rewrite E. apply g_right with r'; auto. apply (IH (Leaf a) r'). pose proof (step_nodes _ _ H). lia.
    + rewrite E, bind_failed. apply g_stop_right; auto.
  - rewrite E. apply g_left with l'; auto. apply (IH l' r). pose proof (step_nodes _ _ H). lia.
  - rewrite E, bind_failed. apply g_stop_left; auto.
Qed.
Lemma some_order (k : A -> A -> res C) p : may_give k p (call_in_order p k).
Proof. destruct p as [l r]. eapply left_to_right. constructor. Qed.

(** Where all failures are alike the order does not matter. *)
Variables (P : A -> Prop) (x0 : failure).
Definition total_or (f : A -> A -> res A) : Prop := forall a b, P a -> P b -> (exists c, f a b = Ok c /\ P c) \/ f a b = failed x0.
Inductive plain : expr A -> Prop :=
| pl_leaf a : P a -> plain (Leaf a)
| pl_node f l r : total_or f -> plain l -> plain r -> plain (Node f l r).
Lemma plain_step (e : expr A) e' : plain e -> step e e' -> plain e'.
Proof.
  intros Hp Hs. induction Hs as [f a b c H|f l l' r H IH|f l r r' H IH]; inversion Hp as [|? ? ? Ht Hl Hr]; subst; [|constructor; auto..].
  inversion Hl; inversion Hr; subst. destruct (Ht a b) as [(c' & E & Pc)|E]; auto; rewrite H in E; [injection E as <-; constructor; auto|].
  symmetry in E. destruct (failed_not_ok _ _ E).
Qed.
Lemma plain_stops (e : expr A) x : plain e -> stops e x -> x = x0.
Proof.
  intros Hp Hs. induction Hs as [f a b x H|f l r x H IH|f l r x H IH]; inversion Hp as [|? ? ? Ht Hl Hr]; subst; auto.
  inversion Hl; inversion Hr; subst. destruct (Ht a b) as [(c' & E & Pc)|E]; auto; rewrite H in E; [destruct (failed_not_ok _ _ E)|apply failed_inj in E; auto].
Qed.
Lemma plain_in_order (e : expr A) : plain e -> (exists a, in_order e = Ok a /\ P a) \/ in_order e = failed x0.
Proof.
  induction 1 as [a H|f l r Ht Hl IHl Hr IHr]; cbn [in_order]; [left; eauto|].
  destruct IHl as [(a & -> & Pa)| ->]; [|right; apply bind_failed]. cbn [bind].
  destruct IHr as [(b & -> & Pb)| ->]; [|right; apply bind_failed]. cbn [bind]. apply Ht; auto.
Qed.
Lemma stops_in_order (e : expr A) x : stops e x -> forall a, in_order e <> Ok a.
Proof.
  induction 1 as [f a b x H|f l r x H IH|f l r x H IH]; intros a0; cbn [in_order bind].
  - rewrite H. apply failed_not_ok.
  - destruct (in_order l) as [a|e| | |] eqn:E; cbn [bind]; try discriminate. destruct (IH a eq_refl).
  - destruct (in_order l) as [a|e| | |]; cbn [bind]; try discriminate. destruct (in_order r) as [b|e| | |] eqn:E; cbn [bind]; try discriminate. destruct (IH b eq_refl).
Qed.
Lemma any_order (k : A -> A -> res C) p m : plain (fst p) -> plain (snd p) -> may_give k p m -> m = call_in_order p k.
Proof.
  intros H1 H2 H. unfold call_in_order. induction H as [a b|l l' r m H G IH|l r r' m H G IH|l r x H|l r x H]; cbn [fst snd in_order bind] in *; auto.
  - rewrite (step_in_order _ _ H). apply IH; auto. apply (plain_step l l'); auto.
  - rewrite (step_in_order _ _ H). apply IH; auto. apply (plain_step r r'); auto.
  - rewrite (plain_stops l x H1 H). destruct (plain_in_order l H1) as [(a & E & _)|E]; [destruct (stops_in_order _ _ H a E)|]. rewrite E, bind_failed. reflexivity.
  - rewrite (plain_stops r x H2 H). destruct (plain_in_order l H1) as [(a & E & _)|E]; rewrite E; [cbn [bind]|rewrite bind_failed; reflexivity].
    destruct (plain_in_order r H2) as [(b & E' & _)|E']; [destruct (stops_in_order _ _ H b E')|]. rewrite E', bind_failed. reflexivity.
Qed.
Lemma one_outcome (k : A -> A -> res C) p m : plain (fst p) -> plain (snd p) -> (may_give k p m <-> m = call_in_order p k).
Proof. intros H1 H2. split; [apply any_order; auto|]. intros ->. apply some_order. Qed.
End General.

(** *** Int *)
Lemma int_total (o : aop) : o <> Div -> o <> Mod -> total_or wf Asserted (binary o).
Proof.
  intros N1 N2 a b Ha Hb. destruct (binary_sound o a b Ha Hb) as [(r & E & W & _)|[([E|E] & _)|[_ E]]]; try contradiction; [left; eauto|right; exact E].
Qed.
Lemma int_total_nd (o : aop) : o <> Div -> o <> Mod -> total_or wf (Threw OutOfRange) (binary_nd o).
Proof.
  intros N1 N2 a b Ha Hb. destruct (binary_sound_nd o a b Ha Hb) as [(r & E & W & _)|[([E|E] & _)|[_ E]]]; try contradiction; [left; eauto|right; exact E].
Qed.
Section Operators.
Variables (x0 : failure) (mu ad su po : Int -> Int -> res Int).
Hypotheses (Hm : total_or wf x0 mu) (Ha : total_or wf x0 ad) (Hs : total_or wf x0 su) (Hp : total_or wf x0 po).
Ltac tree := cbn; repeat (apply pl_node || apply pl_leaf); auto.
Lemma bin_plain o x y : wfrac x -> wfrac y -> plain wf x0 (fst (bin_args mu ad su o x y)) /\ plain wf x0 (snd (bin_args mu ad su o x y)).
Proof. intros [H1 H2] [H3 H4]. destruct o; split; tree. Qed.
Lemma intl_plain o a x : wf a -> wfrac x -> plain wf x0 (fst (intl_args mu ad su o a x)) /\ plain wf x0 (snd (intl_args mu ad su o a x)).
Proof. intros H0 [H1 H2]. destruct o; split; tree. Qed.
Lemma intr_plain o x a : wf a -> wfrac x -> plain wf x0 (fst (intr_args mu ad su o x a)) /\ plain wf x0 (snd (intr_args mu ad su o x a)).
Proof. intros H0 [H1 H2]. destruct o; split; tree. Qed.
Lemma lt_plain x y : wfrac x -> wfrac y -> plain wf x0 (fst (lt_sides mu x y)) /\ plain wf x0 (snd (lt_sides mu x y)).
Proof. intros [H1 H2] [H3 H4]. split; tree. Qed.
Lemma pow_plain s x e : wfrac x -> wf e -> plain wf x0 (fst (pow_args po s x e)) /\ plain wf x0 (snd (pow_args po s x e)).
Proof. intros [H1 H2] H3. destruct s; split; tree. Qed.
End Operators.
(** The model's operators evaluate these trees from left to right. *)
Lemma bin_in_order o x y : call_in_order (bin_args op_mul op_add op_sub o x y) Frac_make = Fbin o x y.
Proof.
  unfold call_in_order. destruct o; cbn [bin_args fst snd in_order bind Fbin]; unfold F_add, F_sub, F_mul, F_div; auto;
  destruct (op_mul (top x) (bot y)); cbn [bind]; auto; destruct (op_mul (top y) (bot x)); cbn [bind]; auto.
Qed.
Lemma bin_in_order_nd o x y : call_in_order (bin_args op_mul_nd op_add_nd op_sub_nd o x y) Frac_make_nd = Fbin_nd o x y.
Proof.
  unfold call_in_order. destruct o; cbn [bin_args fst snd in_order bind Fbin_nd]; unfold F_add_nd, F_sub_nd, F_mul_nd, F_div_nd; auto;
  destruct (op_mul_nd (top x) (bot y)); cbn [bind]; auto; destruct (op_mul_nd (top y) (bot x)); cbn [bind]; auto.
Qed.
Lemma intl_in_order o a x : call_in_order (intl_args op_mul op_add op_sub o a x) Frac_make = IFbin o a x.
Proof. unfold call_in_order. destruct o; cbn [intl_args fst snd in_order bind IFbin]; unfold IF_add, IF_sub, IF_mul, IF_div; destruct (op_mul a _); reflexivity. Qed.
Lemma intl_in_order_nd o a x : call_in_order (intl_args op_mul_nd op_add_nd op_sub_nd o a x) Frac_make_nd = IFbin_nd o a x.
Proof. unfold call_in_order. destruct o; cbn [intl_args fst snd in_order bind IFbin_nd]; unfold IF_add_nd, IF_sub_nd, IF_mul_nd, IF_div_nd; destruct (op_mul_nd a _); reflexivity. Qed.
Lemma intr_in_order o x a : call_in_order (intr_args op_mul op_add op_sub o x a) Frac_make = FIbin o x a.
Proof. unfold call_in_order. destruct o; cbn [intr_args fst snd in_order bind FIbin]; unfold FI_add, FI_sub, FI_mul, FI_div; try (destruct (op_mul a _); reflexivity). destruct (op_mul (bot x) a); reflexivity. Qed.
Lemma intr_in_order_nd o x a : call_in_order (intr_args op_mul_nd op_add_nd op_sub_nd o x a) Frac_make_nd = FIbin_nd o x a.
Proof. unfold call_in_order. destruct o; cbn [intr_args fst snd in_order bind FIbin_nd]; unfold FI_add_nd, FI_sub_nd, FI_mul_nd, FI_div_nd; try (destruct (op_mul_nd a _); reflexivity). destruct (op_mul_nd (bot x) a); reflexivity. Qed.
Lemma lt_in_order x y : call_in_order (lt_sides op_mul x y) op_lt = F_lt x y.
Proof. reflexivity. Qed.
Lemma lt_in_order_nd x y : call_in_order (lt_sides op_mul_nd x y) op_lt = F_lt_nd x y.
Proof. reflexivity. Qed.
Lemma pow_in_order x a : (e <- (if is_negative a then op_neg a else Ok a) ;; call_in_order (pow_args op_pow (is_negative a) x e) Frac_make) = F_pow x a.
Proof. unfold F_pow. destruct (is_negative a); reflexivity. Qed.
Lemma pow_in_order_nd x a : (e <- (if is_negative a then op_neg a else Ok a) ;; call_in_order (pow_args op_pow_nd (is_negative a) x e) Frac_make_nd) = F_pow_nd x a.
Proof. unfold F_pow_nd. destruct (is_negative a); reflexivity. Qed.

(** *** Cross products *)
Definition finite (f : Frac) : Prop := wfrac f /\ val (bot f) <> 0.
Lemma frac_mul_total : total_or reduced Asserted F_mul.
Proof.
  intros x y (C1 & C2 & P1 & _) (C3 & C4 & P2 & _).
  destruct (F_mul_makes x y (conj C1 C2) (conj C3 C4)) as [[H _]|[(N & _ & E)|(N & _ & r & E & R & _)]]; [nia|right; exact E|left; eauto].
Qed.
Lemma frac_mul_total_nd : total_or finite (Threw OutOfRange) F_mul_nd.
Proof.
  intros x y (Wx & Nx) (Wy & Ny). destruct (bin_sound FMul x y Wx Wy) as [(r & E & W & N & L)|[(Z0 & _)|E]].
  - left. exists r. split; [exact E|]. split; auto. apply lowest_value in L; auto. cbn [pr snd] in L. unfold pr in L. cbn [snd] in L. lia.
  - cbn [den] in Z0. nia.
  - right. exact E.
Qed.
Lemma cross_plain {T} (P : T -> Prop) x0 (E : ops T) a b c d : total_or P x0 (mul E) -> P a -> P b -> P c -> P d ->
  plain P x0 (fst (cross_sides E a b c d)) /\ plain P x0 (snd (cross_sides E a b c d)).
Proof. intros H Ha Hb Hc Hd. split; cbn; repeat (apply pl_node || apply pl_leaf); auto. Qed.
(** Each element of the model's cross product is one of these expressions, from left to right. *)
Lemma minor_in_order {T} (E : ops T) a0 a1 a2 b0 b1 b2 : let x := [a0; a1; a2] in let y := [b0; b1; b2] in
  minor E x y 1 2 = call_in_order (cross_sides E a1 b2 a2 b1) (sub E) /\
  minor E x y 2 0 = call_in_order (cross_sides E a2 b0 a0 b2) (sub E) /\
  minor E x y 0 1 = call_in_order (cross_sides E a0 b1 a1 b0) (sub E).
Proof. cbv zeta; splits; reflexivity. Qed.
Lemma det2_in_order {T} (E : ops T) r c a b c' d l : det2 E (mkMat r c (Some a :: Some b :: Some c' :: Some d :: l)) = call_in_order (cross_sides E a d b c') (sub E).
Proof. reflexivity. Qed.

(** *** One outcome for each operator *)
Lemma mu_total : total_or wf Asserted op_mul.
Proof. apply (int_total Mul); discriminate. Qed.
Lemma ad_total : total_or wf Asserted op_add.
Proof. apply (int_total Add); discriminate. Qed.
Lemma su_total : total_or wf Asserted op_sub.
Proof. apply (int_total Sub); discriminate. Qed.
Lemma po_total : total_or wf Asserted op_pow.
Proof. apply (int_total Pow); discriminate. Qed.
Lemma mu_total_nd : total_or wf (Threw OutOfRange) op_mul_nd.
Proof. apply (int_total_nd Mul); discriminate. Qed.
Lemma ad_total_nd : total_or wf (Threw OutOfRange) op_add_nd.
Proof. apply (int_total_nd Add); discriminate. Qed.
Lemma su_total_nd : total_or wf (Threw OutOfRange) op_sub_nd.
Proof. apply (int_total_nd Sub); discriminate. Qed.
Lemma po_total_nd : total_or wf (Threw OutOfRange) op_pow_nd.
Proof. apply (int_total_nd Pow); discriminate. Qed.
Lemma outcome {A C} (P : A -> Prop) x0 (k : A -> A -> res C) p m : plain P x0 (fst p) /\ plain P x0 (snd p) -> (may_give k p m <-> m = call_in_order p k).
Proof. intros [H1 H2]. apply one_outcome with P x0; auto. Qed.
Local Hint Resolve mu_total ad_total su_total po_total mu_total_nd ad_total_nd su_total_nd po_total_nd : core.
Lemma bin_outcome o x y m : wfrac x -> wfrac y ->
  (may_give Frac_make (bin_args op_mul op_add op_sub o x y) m <-> m = Fbin o x y) /\
  (may_give Frac_make_nd (bin_args op_mul_nd op_add_nd op_sub_nd o x y) m <-> m = Fbin_nd o x y).
Proof.
  intros Hx Hy. rewrite <- bin_in_order, <- bin_in_order_nd.
  split; [apply outcome with wf Asserted|apply outcome with wf (Threw OutOfRange)]; apply bin_plain; auto.
Qed.
Lemma mixed_outcome o x a m : wfrac x -> wf a ->
  (may_give Frac_make (intl_args op_mul op_add op_sub o a x) m <-> m = IFbin o a x) /\
  (may_give Frac_make (intr_args op_mul op_add op_sub o x a) m <-> m = FIbin o x a) /\
  (may_give Frac_make_nd (intl_args op_mul_nd op_add_nd op_sub_nd o a x) m <-> m = IFbin_nd o a x) /\
  (may_give Frac_make_nd (intr_args op_mul_nd op_add_nd op_sub_nd o x a) m <-> m = FIbin_nd o x a).
Proof.
  intros Hx Ha. rewrite <- intl_in_order, <- intl_in_order_nd, <- intr_in_order, <- intr_in_order_nd.
  splits; [apply outcome with wf Asserted; apply intl_plain|apply outcome with wf Asserted; apply intr_plain|
    apply outcome with wf (Threw OutOfRange); apply intl_plain|apply outcome with wf (Threw OutOfRange); apply intr_plain]; auto.
Qed.
Lemma lt_outcome x y m : wfrac x -> wfrac y ->
  (may_give op_lt (lt_sides op_mul x y) m <-> m = F_lt x y) /\ (may_give op_lt (lt_sides op_mul_nd x y) m <-> m = F_lt_nd x y).
Proof.
  intros Hx Hy. rewrite <- lt_in_order, <- lt_in_order_nd.
  split; [apply outcome with wf Asserted|apply outcome with wf (Threw OutOfRange)]; apply lt_plain; auto.
Qed.
Lemma pow_outcome x a e m : wfrac x -> wf a -> (if is_negative a then op_neg a else Ok a) = Ok e ->
  (may_give Frac_make (pow_args op_pow (is_negative a) x e) m <-> m = F_pow x a) /\
  (may_give Frac_make_nd (pow_args op_pow_nd (is_negative a) x e) m <-> m = F_pow_nd x a).
Proof.
  intros Hx Ha E. rewrite <- pow_in_order, <- pow_in_order_nd, E. cbn [bind].
  assert (We : wf e).
  { destruct (is_negative a); [|injection E as <-; auto]. destruct (op_neg_ok a Ha) as (n & E' & _ & _ & W & _). congruence. }
  split; [apply outcome with wf Asserted|apply outcome with wf (Threw OutOfRange)]; apply pow_plain; auto.
Qed.
Lemma sum_outcome x y m : wfrac x -> wfrac y ->
  (may_give op_add (lt_sides op_mul x y) m <-> m = call_in_order (lt_sides op_mul x y) op_add) /\
  (may_give op_sub (lt_sides op_mul x y) m <-> m = call_in_order (lt_sides op_mul x y) op_sub) /\
  (may_give op_add_nd (lt_sides op_mul_nd x y) m <-> m = call_in_order (lt_sides op_mul_nd x y) op_add_nd) /\
  (may_give op_sub_nd (lt_sides op_mul_nd x y) m <-> m = call_in_order (lt_sides op_mul_nd x y) op_sub_nd).
Proof. intros Hx Hy. splits; [apply outcome with wf Asserted..|apply outcome with wf (Threw OutOfRange)|apply outcome with wf (Threw OutOfRange)]; apply lt_plain; auto. Qed.
Lemma cross_int a b c d m : wf a -> wf b -> wf c -> wf d ->
  (may_give op_sub (cross_sides Int_ops a b c d) m <-> m = call_in_order (cross_sides Int_ops a b c d) op_sub) /\
  (may_give op_sub_nd (cross_sides Int_ops_nd a b c d) m <-> m = call_in_order (cross_sides Int_ops_nd a b c d) op_sub_nd).
Proof. intros. split; [apply outcome with wf Asserted|apply outcome with wf (Threw OutOfRange)]; apply cross_plain; auto. Qed.
Lemma cross_frac a b c d m : reduced a -> reduced b -> reduced c -> reduced d ->
  (may_give F_sub (cross_sides Frac_ops a b c d) m <-> m = call_in_order (cross_sides Frac_ops a b c d) F_sub).
Proof. intros. apply outcome with reduced Asserted; apply cross_plain; auto. apply frac_mul_total. Qed.
Lemma cross_frac_nd a b c d m : finite a -> finite b -> finite c -> finite d ->
  (may_give F_sub_nd (cross_sides Frac_ops_nd a b c d) m <-> m = call_in_order (cross_sides Frac_ops_nd a b c d) F_sub_nd).
Proof. intros. apply outcome with finite (Threw OutOfRange); apply cross_plain; auto. apply frac_mul_total_nd. Qed.
