(** A program of calls of Factor, Term and Poly that fails no assertion does the same without them. *)
From Coq Require Import Lia List.
From Verif Require Import Base IntModel IntSpec IntBasics IntMod IOModel FracModel FracSpec PropsFrac ElemModel ElemSpec ElemProofs ElemInst VecModel MatModel PolyModel PolySpec PolyProofs PolyCalls CatchModel
  LeaveModel SimSpec SimProofs ReleaseModel ReleaseProofs FracReleaseModel FracReleaseCallsSpec FracReleaseCallsProofs PolyReleaseModel PolyReleaseCallsModel
  ContReleaseModel ContReleaseSpec ContReleaseInst AgreeProofs LinAgreeProofs LinFracAgreeProofs PolyCatchModel.
Import ListNotations.
Local Open Scope Z_scope.

(** Powers are well-formed Ints, coefficients pairs of such. *)
Definition fq (f : Factor) : Prop := wf (power f).
Definition mq (m : fmap) : Prop := Forall (fun e => fq (snd e)) m.
Definition tq (t : Term) : Prop := wfrac (coeff t) /\ mq (factors t).
Definition pq (p : Poly) : Prop := Forall tq p.

Lemma insert_q m k x : mq m -> fq x -> mq (map_insert m k x).
Proof.
  intros H Hx. induction H as [|[k' x'] m H1 H2 IH]; cbn [map_insert]; [apply Forall_cons; [exact Hx|constructor]|].
  destruct (str_lt k k'); [apply Forall_cons; [exact Hx|apply Forall_cons; auto]|]. destruct (str_lt k' k); apply Forall_cons; auto.
Qed.
Lemma append_tracks t x b : tq t -> fq x -> tracks tq (appendFactor t x b) (appendFactor_nd t x b).
Proof.
  intros [Hc Hm] Hx. unfold appendFactor, appendFactor_nd. destruct (map_find (factors t) (fid x)) as [i|].
  - eapply (tracks_eval (fun e => fq (snd e))); [apply agrees_self; intros e; apply (get_has (fun e => fq (snd e))), Hm|split; auto|]. intros e He _.
    eapply (tracks_eval wf); [apply int_addA_agrees; [exact He|destruct b; cbn; auto]|split; auto|]. intros q Hq _. apply tracks_done. split; auto. apply replace_has; auto.
  - apply tracks_done. split; auto. apply insert_q; auto.
Qed.
Lemma appends_tracks l : forall t, tq t -> Forall fq l -> tracks tq (appendFactors t l) (appendFactors_nd t l).
Proof.
  induction l as [|x l IH]; intros t Ht Hl; cbn [appendFactors appendFactors_nd]; [apply tracks_done, Ht|]. inversion Hl; subst.
  eapply tracks_andthen; [apply append_tracks; auto|auto|]. intros s Hs. apply IH; auto.
Qed.
Lemma own_tracks n : forall i t, tq t -> tracks tq (append_own n i t) (append_own_nd n i t).
Proof.
  induction n as [|n IH]; intros i t Ht; cbn [append_own append_own_nd]; [apply tracks_refl, Ht|]. destruct (nth_error (factors t) i) as [e|] eqn:N; [|apply tracks_done, Ht].
  eapply tracks_andthen; [apply append_tracks; auto; exact (proj1 (Forall_forall _ _) (proj2 Ht) e (nth_error_In _ _ N))|auto|]. intros s Hs. apply IH; auto.
Qed.
Lemma coeff_tracks t p p' : tq t -> tracks wfrac p p' -> tracks tq (on_coeff t p) (on_coeff t p').
Proof. intros [Hc Hm] H D. cbn [on_coeff snd fst] in *. destruct (H D) as [-> W]. split; auto. split; auto. Qed.
Lemma map_q m : mq m -> Forall fq (map snd m).
Proof. intros H. apply Forall_map. exact H. Qed.
Lemma mul_tracks x y : tq x -> opt_all tq y -> tracks tq (term_mul_assign x y) (term_mul_assign_nd x y).
Proof.
  intros Hx Hy. destruct y as [y|]; cbn [term_mul_assign term_mul_assign_nd].
  - eapply tracks_andthen; [apply appends_tracks; auto; apply map_q, Hy|auto|]. intros s Hs. apply coeff_tracks; auto. apply F_mulA_tracks; [apply Hs|apply Hy].
  - eapply tracks_andthen; [apply own_tracks; auto|auto|]. intros s Hs. apply coeff_tracks; auto. apply F_mulA_tracks; [apply Hs|exact I].
Qed.
Lemma negate_tracks t : tq t -> tracks tq (negate_term t) (negate_term_nd t).
Proof.
  intros Ht. destruct (Int_of_int64_ok (-1) 0) as (m & E & _ & C & _); [unfold INT64_MIN, INT64_MAX; lia|]. unfold negate_term, negate_term_nd. rewrite E. cbn [eval].
  apply coeff_tracks; auto. unfold FI_mul_assign, FI_mul_assign_nd. apply fthen_tracks; [|exact normalize_tracks]. apply top_tracks; [apply Ht|]. apply int_mulA_agrees; [apply Ht|exact (canonical_wf _ C)].
Qed.
Lemma int_q k : INT32_MIN <= k <= INT32_MAX -> agrees (same wfrac) (Frac_of_int k) (Frac_of_int k).
Proof. intros Hk. apply agrees_self. intros a E. destruct (PropsFrac.C32_of_int k Hk) as (f & E' & (C1 & C2 & _) & _). assert (a = f) as -> by congruence. split; apply canonical_wf; assumption. Qed.
Lemma of_agrees c x : wfrac c -> fq x -> agrees (same tq) (Term_of c x) (Term_of_nd c x).
Proof. intros Hc Hx. apply tracks_final, append_tracks; auto. split; [exact Hc|constructor]. Qed.
Lemma factor_agrees x : fq x -> agrees (same tq) (Term_of_factor x) (Term_of_factor_nd x).
Proof. intros Hx. unfold Term_of_factor, Term_of_factor_nd. eapply agrees_bind; [apply int_q; unfold INT32_MIN, INT32_MAX; lia|]. intros c c' [-> Hc]. apply of_agrees; auto. Qed.
Lemma minus_agrees x : fq x -> agrees (same tq) (minus_factor x) (minus_factor_nd x).
Proof. intros Hx. unfold minus_factor, minus_factor_nd. eapply agrees_bind; [apply int_q; unfold INT32_MIN, INT32_MAX; lia|]. intros c c' [-> Hc]. apply of_agrees; auto. Qed.
Lemma vector_agrees c l : wfrac c -> Forall fq l -> agrees (same tq) (Term_of_vector c l) (Term_of_vector_nd c l).
Proof. intros Hc Hl. apply tracks_final, appends_tracks; auto. split; [exact Hc|constructor]. Qed.

Lemma place_q l x : pq l -> forall ab, find_place l x = Ok ab -> pq (fst ab) /\ pq (snd ab).
Proof.
  induction 1 as [|t l Ht Hl IH]; cbn [find_place]; intros ab E; [injection E as <-; split; constructor|].
  destruct (term_lt t x) as [b| | | |]; try discriminate. cbn [bind] in E. destruct b; [|injection E as <-; split; constructor; auto].
  destruct (find_place l x) as [[a c]| | | |]; try discriminate. injection E as <-. destruct (IH _ eq_refl) as [Ha Hb]. split; [constructor; auto|exact Hb].
Qed.
Lemma term_tracks p x : pq p -> tq x -> tracks pq (appendTerm p x) (appendTerm_nd p x).
Proof.
  intros Hp Hx. unfold appendTerm, appendTerm_nd. eapply (tracks_eval (fun ab => pq (fst ab) /\ pq (snd ab))); [apply agrees_self, place_q, Hp|exact Hp|]. intros [a b] [Ha Hb] _. cbn [fst snd] in *.
  destruct Hb as [|t rest Ht Hr]; [apply tracks_refl, Hp|]. eapply (tracks_eval (fun _ => True)); [apply agrees_self; auto|exact Hp|]. intros e _ _. destruct e.
  - pose proof (coeff_tracks t _ _ Ht (addsub_tracks op_add op_add_nd (coeff t) (Some (coeff x)) int_add_agrees (proj1 Ht) (proj1 Hx))) as K.
    change (F_addsub_assign op_add) with F_add_assign in K. change (F_addsub_assign_nd op_add_nd) with F_add_assign_nd in K. unfold tracks in K.
    destruct (on_coeff t (F_add_assign (coeff t) (Some (coeff x)))) as [t1 r1], (on_coeff t (F_add_assign_nd (coeff t) (Some (coeff x)))) as [t2 r2]. cbn [fst snd] in K.
    intros D. cbn [fst snd] in *. destruct (K D) as [E K']. injection E as -> ->. split; auto. apply Forall_app. split; [exact Ha|apply Forall_cons; auto].
  - apply tracks_done. apply Forall_app. split; auto.
Qed.
Lemma each_tracks l : forall p, pq p -> Forall tq l -> tracks pq (append_each p l) (append_each_nd p l).
Proof.
  induction l as [|x l IH]; intros p Hp Hl; cbn [append_each append_each_nd]; [apply tracks_done, Hp|]. inversion Hl; subst.
  eapply tracks_andthen; [apply term_tracks; auto|auto|]. intros s Hs. apply IH; auto.
Qed.
Lemma each_factor_tracks l : forall p, pq p -> Forall fq l -> tracks pq (append_each_factor p l) (append_each_factor_nd p l).
Proof.
  induction l as [|x l IH]; intros p Hp Hl; cbn [append_each_factor append_each_factor_nd]; [apply tracks_done, Hp|]. inversion Hl; subst.
  eapply (tracks_eval tq); [apply factor_agrees; auto|auto|]. intros t Ht _. eapply tracks_andthen; [apply term_tracks; auto|auto|]. intros s Hs. apply IH; auto.
Qed.
Lemma merge_q n : forall a b, pq a -> pq b -> forall r, merge_loop n a b = Ok r -> pq r.
Proof.
  induction n as [|n IH]; intros a b Ha Hb r E; cbn [merge_loop] in E; [discriminate|]. destruct Ha as [|x a Hx Ha]; [injection E as <-; auto|]. destruct Hb as [|y b Hy Hb]; [injection E as <-; constructor; auto|].
  destruct (term_lt y x) as [l| | | |]; try discriminate. cbn [bind] in E. destruct l.
  - destruct (merge_loop n (x :: a) b) as [r'| | | |] eqn:M; try discriminate. injection E as <-. constructor; auto. eapply IH; [| |exact M]; auto. constructor; auto.
  - destruct (merge_loop n a (y :: b)) as [r'| | | |] eqn:M; try discriminate. injection E as <-. constructor; auto. eapply IH; [| |exact M]; auto. constructor; auto.
Qed.
Lemma terms_q p l : pq p -> pq l -> forall r, appendTerms p l = Ok r -> pq r.
Proof.
  intros Hp Hl r E. unfold appendTerms in E. destruct (is_sorted p) as [b| | | |]; try discriminate. destruct (is_sorted l) as [b'| | | |]; try discriminate. cbn [bind] in E.
  destruct (b && b')%bool; [|discriminate]. eapply merge_q; [| |exact E]; auto.
Qed.

(** *** Calls *)
Definition oq (s : objects) : Prop := (forall a, fq (F s a)) /\ (forall a, tq (T s a)) /\ (forall a, pq (P s a)).
Definition args_q (c : pcall) : Prop :=
  match c with FactorNew _ _ x | SetPower _ x => wf x | TermCoeff _ c _ | TermVector _ c _ | SetCoeff _ c => wfrac c | _ => True end.
Definition alike_calls (m m' : res (objects * event)) : Prop :=
  m = Abort \/ m' = m /\ match m with Ok (s, _) => oq s | _ => True end.
Lemma put_q {A} (Q : A -> Prop) (m : nat -> A) d x : (forall n, Q (m n)) -> Q x -> forall n, Q (PolyCalls.put_at m d x n).
Proof. intros H Hx n. unfold PolyCalls.put_at. destruct (Nat.eqb n d); auto. Qed.
Lemma make_alike {A} (Q : A -> Prop) s m m' put : oq s -> agrees (same Q) m m' -> (forall x, Q x -> oq (put x)) -> alike_calls (make s m put) (make s m' put).
Proof. intros Hs H K. destruct m, m'; cbn in *; try contradiction; try (left; reflexivity); right; try (destruct H as [-> H]); subst; split; auto. Qed.
Lemma change_alike {A} (Q : A -> Prop) p p' put : tracks Q p p' -> (forall x, Q x -> oq (put x)) -> alike_calls (change p put) (change p' put).
Proof.
  intros H K. unfold tracks in H. destruct p as [x m]. cbn [fst snd] in H. unfold change. cbn [fst snd].
  destruct m; try (left; reflexivity); right; (destruct H as [-> H]; [discriminate|]); cbn [fst snd]; split; auto.
Qed.
Lemma call_alike s c : oq s -> args_q c -> alike_calls (catch_call s c) (nd_call s c).
Proof.
  intros Hs Ha. pose proof Hs as (Hf & Ht & Hp).
  assert (KF : forall d x, fq x -> oq (putF s d x)) by (intros d x Hx; split; [|split]; cbn; auto; apply put_q; auto).
  assert (KT : forall d x, tq x -> oq (putT s d x)) by (intros d x Hx; split; [|split]; cbn; auto; apply put_q; auto).
  assert (KP : forall d x, pq x -> oq (putP s d x)) by (intros d x Hx; split; [|split]; cbn; auto; apply put_q; auto).
  assert (LF : forall l, Forall fq (map (F s) l)) by (intros l; apply Forall_map, Forall_forall; auto).
  assert (LT : forall l, pq (map (T s) l)) by (intros l; apply Forall_map, Forall_forall; auto).
  assert (OT : forall t, tq t -> agrees (same pq) (Poly_of_term t) (Poly_of_term t)) by (intros t H; split; auto; constructor; auto; constructor).
  destruct c; cbn [catch_call nd_call args_q] in *.
  - apply (make_alike fq); auto. split; auto. 
  - apply (make_alike fq); auto. split; auto.
  - apply (make_alike fq); auto. split; auto. apply Hf.
  - apply (make_alike fq); auto. split; auto.
  - apply (make_alike tq); auto. apply factor_agrees; auto.
  - apply (make_alike tq); auto. apply of_agrees; auto.
  - apply (make_alike tq); auto. apply vector_agrees; auto.
  - apply (make_alike tq); auto. split; auto.
  - apply (make_alike tq); auto. unfold factor_mul, factor_mul_nd. eapply agrees_bind; [apply factor_agrees; auto|]. intros x x' [-> Hx]. apply tracks_final, append_tracks; auto.
  - apply (make_alike tq); auto. apply tracks_final, append_tracks; auto.
  - apply (make_alike tq); auto. apply tracks_final, append_tracks; auto.
  - apply (make_alike tq); auto. apply tracks_final. exact (mul_tracks (T s t) (Some (T s u)) (Ht t) (Ht u)).
  - apply (change_alike tq); auto. apply append_tracks; auto.
  - apply (change_alike tq); auto. apply append_tracks; auto.
  - apply (change_alike tq); auto. apply mul_tracks; auto. destruct (Nat.eqb _ _); cbn; auto.
  - apply (change_alike tq); auto. apply negate_tracks; auto.
  - apply (make_alike tq); auto. split; auto. split; auto. apply Ht.
  - apply (make_alike pq); auto. unfold Poly_of_factor, Poly_of_factor_nd. eapply agrees_bind; [apply factor_agrees; auto|]. intros x x' [-> Hx]. apply OT, Hx.
  - apply (make_alike pq); auto.
  - apply (make_alike pq); auto. apply tracks_final, each_factor_tracks; auto. constructor.
  - apply (make_alike pq); auto. apply tracks_final, each_tracks; auto; [constructor|apply LT].
  - apply (make_alike pq); auto. split; auto.
  - apply (change_alike pq); auto. apply term_tracks; auto.
  - apply (make_alike pq); auto. apply agrees_self, terms_q; auto.
  - apply (make_alike pq); auto. unfold factor_add, factor_add_nd. eapply agrees_bind; [apply factor_agrees; auto|]. intros x x' [-> Hx].
    eapply agrees_bind; [apply OT, Hx|]. intros q q' [-> Hq]. eapply agrees_bind; [apply factor_agrees; auto|]. intros y y' [-> Hy]. apply tracks_final, term_tracks; auto.
  - apply (make_alike pq); auto. unfold factor_sub, factor_sub_nd, Poly_of_factor, Poly_of_factor_nd. eapply (agrees_bind (same pq)); [eapply agrees_bind; [apply factor_agrees; auto|]; intros x x' [-> Hx]; apply OT, Hx|].
    intros q q' [-> Hq]. eapply agrees_bind; [apply minus_agrees; auto|]. intros y y' [-> Hy]. apply tracks_final, term_tracks; auto.
  - apply (make_alike pq); auto. unfold term_add, term_add_nd. eapply agrees_bind; [apply OT, Ht|]. intros q q' [-> Hq]. apply tracks_final, term_tracks; auto.
  - apply (make_alike pq); auto. unfold term_sub, term_sub_nd. eapply agrees_bind; [apply OT, Ht|]. intros q q' [-> Hq].
    eapply agrees_bind; [apply tracks_final, negate_tracks; auto|]. intros y y' [-> Hy]. apply tracks_final, term_tracks; auto.
  - apply (change_alike pq); auto. unfold poly_add_assign, poly_add_assign_nd. eapply (tracks_eval tq); [apply factor_agrees; auto|apply Hp|]. intros y Hy _. apply term_tracks; auto.
  - apply (change_alike pq); auto. unfold poly_sub_assign, poly_sub_assign_nd. eapply (tracks_eval tq); [apply minus_agrees; auto|apply Hp|]. intros y Hy _. apply term_tracks; auto.
Qed.
Theorem poly_same l : forall s, oq s -> Forall args_q l -> catch_calls s l = Abort \/ catch_calls s l = nd_calls s l.
Proof.
  induction l as [|c l IH]; intros s Hs Hl; [right; reflexivity|]. inversion Hl as [|? ? H1 H2]; subst. cbn [catch_calls nd_calls].
  destruct (call_alike s c Hs H1) as [E|[E Q]]; rewrite E; [left; reflexivity|]. destruct (catch_call s c) as [[s' ev]|e| | |]; cbn [bind fst snd]; try (right; reflexivity).
  destruct (IH s' Q H2) as [E2|E2]; rewrite E2; [left; reflexivity|right; reflexivity].
Qed.
Theorem poly_call s c : oq s -> args_q c -> catch_call s c = Abort \/ nd_call s c = catch_call s c.
Proof. intros Hs Ha. destruct (call_alike s c Hs Ha) as [E|[E _]]; auto. Qed.
(** *** Against PolyCalls *)
Lemma made {A} s (m : res A) put s' : (x <- m ;; Ok (put x)) = Ok s' <-> make s m put = Ok (s', Done).
Proof. destruct m; cbn; split; intros E; try discriminate; congruence. Qed.
Lemma changed {A} (p : outcome A) put s' : (x <- final p ;; Ok (put x)) = Ok s' <-> change p put = Ok (s', Done).
Proof. destruct p as [x []]; cbn; split; intros E; try discriminate; congruence. Qed.
Lemma poly_usual s c s' : run_call s c = Ok s' <-> catch_call s c = Ok (s', Done).
Proof. destruct c; cbn [run_call catch_call]; first [apply made|apply changed|cbn [make]; split; intros E; congruence]. Qed.
(** *** Up to the first assertion that fails *)
Lemma nd_app l q : forall s, nd_calls s (l ++ q) = a <- nd_calls s l ;; b <- nd_calls (fst a) q ;; Ok (fst b, snd a ++ snd b).
Proof.
  induction l as [|c l IH]; intros s; cbn [app nd_calls].
  - cbn [bind fst snd app]. destruct (nd_calls s q) as [[s' l]|e| | |]; reflexivity.
  - destruct (nd_call s c) as [[s1 ev]|e| | |]; cbn [bind fst snd]; auto. rewrite IH. destruct (nd_calls s1 l) as [[s2 l2]|e| | |]; cbn [bind fst snd]; auto.
    destruct (nd_calls s2 q) as [[s3 l3]|e| | |]; reflexivity.
Qed.
Theorem poly_until l q s s' evs : oq s -> Forall args_q l -> catch_calls s l = Ok (s', evs) -> nd_calls s (l ++ q) = b <- nd_calls s' q ;; Ok (fst b, evs ++ snd b).
Proof. intros Hs Hl E. destruct (poly_same l s Hs Hl) as [E'|E']; [rewrite E' in E; discriminate|]. rewrite nd_app, <- E', E. reflexivity. Qed.
Theorem poly_first l : forall s, oq s -> Forall args_q l -> catch_calls s l = Abort ->
  exists l1 c l2 s1 evs, l = l1 ++ c :: l2 /\ catch_calls s l1 = Ok (s1, evs) /\ nd_calls s l1 = Ok (s1, evs) /\ catch_call s1 c = Abort.
Proof.
  induction l as [|c l IH]; intros s Hs Hl; [discriminate|]. inversion Hl as [|? ? H1 H2]; subst. cbn [catch_calls].
  destruct (call_alike s c Hs H1) as [E|[E Q]]; [intros _; exists [], c, l, s, []; auto|]. destruct (catch_call s c) as [[s' ev]|e| | |] eqn:C; cbn [bind fst snd]; try discriminate.
  - intros A. assert (A' : catch_calls s' l = Abort) by (destruct (catch_calls s' l) as [[]|e| | |]; [discriminate A|discriminate A|reflexivity|discriminate A|discriminate A]).
    destruct (IH s' Q H2 A') as (l1 & c' & l2 & s1 & evs & -> & E1 & E2 & E3). exists (c :: l1), c', l2, s1, (ev :: evs). split; [reflexivity|].
    cbn [catch_calls nd_calls]. rewrite C, E. cbn [bind fst snd]. rewrite E1, E2. auto.
  - intros _. exists [], c, l, s, []. auto.
Qed.
