(** A program of Vec<Int> and Mat<Int> calls that fails no assertion does the same without them. *)
From Coq Require Import Lia.
From Verif Require Import Base IntModel IntSpec IntBasics IntAddSub IntMul IntDiv IntMod PropsInt IntCalls ElemModel ElemSpec ElemProofs ElemInst VecModel MatModel
  LeaveModel SimSpec SimProofs LinSpec LinCalls LinInst ReleaseModel ReleaseSpec ReleaseProofs ReleaseProofs2 ReleaseCallsModel ReleaseCallsProofs
  ContReleaseModel ContReleaseSpec ContReleaseInst LinReleaseModel LinReleaseSpec LinReleaseProofs AgreeProofs.
Local Open Scope nat_scope.

(** *** The same value, which has P *)
Definition entries_have {A} (P : A -> Prop) (m : Mat A) : Prop := Forall (opt_all P) (data m).
Lemma vec_same {A} (P : A -> Prop) x : Forall P x -> vec_sim (same P) x x.
Proof. intros H. induction H; constructor; auto. split; auto. Qed.
Lemma vec_inv {A} (P : A -> Prop) x y : vec_sim (same P) x y -> same (Forall P) x y.
Proof. intros H. induction H as [|a b x y [-> Ha] H [-> IH]]; split; auto. Qed.
Lemma mat_same {A} (P : A -> Prop) m : entries_have P m -> mat_agrees (same P) m m.
Proof.
  intros H. split; [reflexivity|]. split; [reflexivity|]. unfold entries_have in H. induction H as [|o l Ho H IH]; constructor; auto. destruct o; cbn in *; auto. split; auto.
Qed.
Lemma mat_inv {A} (P : A -> Prop) x y : mat_agrees (same P) x y -> same (entries_have P) x y.
Proof.
  destruct x as [r c l], y as [r' c' l']. intros (H1 & H2 & H3). cbn in *. subst r' c'. unfold same, entries_have. cbn [data].
  assert (K : l' = l /\ Forall (opt_all P) l); [|destruct K as [-> K]; auto].
  induction H3 as [|a b x y Hab H [-> IH]]; auto. apply opt_same in Hab as [-> Ho]. auto.
Qed.
Lemma agrees_vec {A} (P : A -> Prop) m m' : agrees (vec_sim (same P)) m m' -> agrees (same (Forall P)) m m'.
Proof. intros H. eapply agrees_mono; [exact H|]. apply vec_inv. Qed.
Lemma agrees_mat {A} (P : A -> Prop) m m' : agrees (mat_agrees (same P)) m m' -> agrees (same (entries_have P)) m m'.
Proof. intros H. eapply agrees_mono; [exact H|]. apply mat_inv. Qed.
Lemma agrees_self {A} (P : A -> Prop) (m : res A) : (forall a, m = Ok a -> P a) -> agrees (same P) m m.
Proof. intros H. destruct m; cbn; auto. split; auto. Qed.

(** *** Statements: unless the first fails an assertion, the second is the same and leaves Q *)
Definition tracks {S} (Q : S -> Prop) (p p' : outcome S) : Prop := snd p <> Abort -> p' = p /\ Q (fst p).
Lemma tracks_done {S} (Q : S -> Prop) s : Q s -> tracks Q (done s) (done s).
Proof. intros H _. auto. Qed.
Lemma tracks_refl {S} (Q : S -> Prop) p : Q (fst p) -> tracks Q p p.
Proof. intros H _. auto. Qed.
Lemma tracks_eval {A S} (P : A -> Prop) (Q : S -> Prop) s m m' k k' : agrees (same P) m m' -> Q s -> (forall a, P a -> m = Ok a -> tracks Q (k a) (k' a)) ->
  tracks Q (eval s m k) (eval s m' k').
Proof.
  intros H Hs K. destruct m as [a|e| | |], m' as [b|e'| | |]; cbn in *; try contradiction; try (intros D; cbn in *; congruence).
  - destruct H as [-> H]. apply K; auto.
  - subst e'. intros _. auto.
  - intros _. auto.
  - intros _. auto.
Qed.
Lemma tracks_andthen {S} (Q Q' : S -> Prop) p p' k k' : tracks Q p p' -> (forall s, Q s -> Q' s) -> (forall s, Q s -> tracks Q' (k s) (k' s)) -> tracks Q' (andthen p k) (andthen p' k').
Proof.
  intros H M K D. destruct p as [s m]. destruct m; cbn [andthen fst snd] in *; try (destruct H as [-> H]; [cbn; congruence|]; cbn [andthen fst] in *; auto). apply K; auto.
Qed.
Lemma tracks_for {S} (Q : S -> Prop) b b' n : forall a s, Q s -> (forall i s, Q s -> tracks Q (b i s) (b' i s)) -> tracks Q (for_ n a b s) (for_ n a b' s).
Proof.
  induction n as [|n IH]; intros a s Hs H; cbn [for_]; [apply tracks_done, Hs|]. eapply tracks_andthen; [apply H, Hs|auto|]. intros. apply IH; auto.
Qed.
Lemma tracks_for2 {S} (Q : S -> Prop) r c b b' s : Q s -> (forall i j s, Q s -> tracks Q (b i j s) (b' i j s)) -> tracks Q (for2 r c b s) (for2 r c b' s).
Proof. intros Hs H. apply tracks_for; auto. intros. apply tracks_for; auto. Qed.

Section Agree.
Context {T : Type} (P : T -> Prop).
Notation VP := (Forall P).
Notation MP := (entries_have P).
Lemma get_has x i e : VP x -> get_at x i = Ok e -> P e.
Proof. intros H G. unfold get_at in G. destruct (nth_error x i) eqn:N; [|discriminate]. injection G as <-. eapply Forall_forall; [exact H|]. eapply nth_error_In, N. Qed.
Lemma replace_has {A} (Q : A -> Prop) (x : list A) i e : Forall Q x -> Q e -> Forall Q (replace x i e).
Proof. intros H He. revert i. induction H; intros [|i]; cbn; auto. Qed.
Lemma replace_get {A} (x : list A) : forall i e, nth_error x i = Some e -> replace x i e = x.
Proof. induction x as [|a x IH]; intros [|i] e; cbn; try discriminate; intros H; [congruence|]. rewrite IH by auto. reflexivity. Qed.
Lemma read_has l k e : Forall (opt_all P) l -> read l k = Ok e -> P e.
Proof.
  intros H G. unfold read in G. destruct (nth_error l k) as [[x|]|] eqn:N; try discriminate. injection G as <-.
  apply nth_error_In in N. exact (proj1 (Forall_forall _ _) H _ N).
Qed.
Lemma entry_has m i j e : MP m -> entry m i j = Ok e -> P e.
Proof. apply read_has. Qed.
Lemma set_has m i j e : MP m -> P e -> MP (fst (set_entry m i j e)).
Proof. intros H He. unfold set_entry. destruct (_ <? _); cbn; auto. unfold entries_have. cbn [data]. apply replace_has; auto. Qed.
Lemma set_same (m : Mat T) i j e : entry m i j = Ok e -> set_entry m i j e = done m.
Proof.
  unfold entry, read, set_entry. destruct (nth_error (data m) (offset m i j)) as [[x|]|] eqn:N; try discriminate. intros [= <-].
  assert (offset m i j < length (data m)) by (apply nth_error_Some; congruence). destruct (Nat.ltb_spec (offset m i j) (length (data m))); [|lia].
  rewrite replace_get by auto. destruct m; reflexivity.
Qed.

(** an operator and the one that says what it leaves *)
Definition in_step (op : T -> option T -> res T) (op' : lop T) : Prop := forall x y, P x -> opt_all P y ->
  match op x y with Ok r => P r /\ op' x y = (r, Ok tt) | Throw e => op' x y = (x, Throw e) | Abort => True | _ => False end.
Section Loops.
Context (op : T -> option T -> res T) (op' : lop T) (H : in_step op op').
Lemma at_tracks x i y : VP x -> opt_all P y -> tracks VP (assign_at op x i y) (assign_at' op' x i y).
Proof.
  intros Hx Hy. unfold assign_at, assign_at'. destruct (get_at x i) as [e|ex| | |] eqn:G; cbn [bind eval]; try (apply tracks_refl; exact Hx).
  pose proof (get_has _ _ _ Hx G) as He. specialize (H e y He Hy). destruct (op e y) as [r|ex| | |]; cbn [eval]; try contradiction.
  - destruct H as [Hr ->]. apply tracks_refl. apply replace_has; auto.
  - rewrite H. cbn [fst snd]. unfold get_at in G. destruct (nth_error x i) eqn:N; [|discriminate]. injection G as ->. rewrite replace_get by auto. apply tracks_refl, Hx.
  - intros D. cbn in D. congruence.
Qed.
Lemma vec_assign_tracks x y : VP x -> opt_all VP y -> tracks VP (vec_assign op x y) (vec_assign' op' x y).
Proof.
  intros Hx Hy. unfold vec_assign, vec_assign'. destruct (negb _); [apply tracks_refl; exact Hx|]. apply tracks_for; auto. intros i s Hs.
  assert (Hr : VP (rd s y)) by (destruct y; auto).
  eapply (tracks_eval P); [apply agrees_self; intros a; apply get_has, Hr|auto|]. intros a Ha _. apply at_tracks; auto.
Qed.
Lemma scale_assign_tracks x s : VP x -> own_or P s -> tracks VP (scale_assign op x s) (scale_assign' op' x s).
Proof.
  intros Hx Hs. unfold scale_assign, scale_assign'. apply tracks_for; auto. intros i d Hd. destruct s as [v|k]; [apply at_tracks; auto|].
  destruct (i =? k); [apply at_tracks; cbn; auto|]. eapply (tracks_eval P); [apply agrees_self; intros a; apply get_has, Hd|auto|]. intros a Ha _. apply at_tracks; auto.
Qed.
Lemma entry_tracks m i j y : MP m -> opt_all P y -> tracks MP (assign_entry op m i j y) (assign_entry' op' m i j y).
Proof.
  intros Hm Hy. unfold assign_entry, assign_entry'. destruct (entry m i j) as [e|ex| | |] eqn:G; cbn [bind eval]; try (apply tracks_refl; exact Hm).
  pose proof (entry_has _ _ _ _ Hm G) as He. specialize (H e y He Hy). destruct (op e y) as [r|ex| | |]; cbn [eval]; try contradiction.
  - destruct H as [Hr ->]. cbn [fst snd]. pose proof (set_has m i j r Hm Hr) as Hs. intros D. destruct (set_entry m i j r) as [m1 [[]|e1| | |]]; cbn in *; auto.
  - rewrite H. cbn [fst snd]. rewrite (set_same _ _ _ _ G). apply tracks_refl, Hm.
  - intros D. cbn in D. congruence.
Qed.
Lemma mat_assign_tracks a b : MP a -> opt_all MP b -> tracks MP (mat_assign op a b) (mat_assign' op' a b).
Proof.
  intros Ha Hb. unfold mat_assign, mat_assign'. destruct (negb _); [apply tracks_refl; exact Ha|]. apply tracks_for2; auto. intros i j s Hs.
  assert (Hr : MP (rd s b)) by (destruct b; auto).
  eapply (tracks_eval P); [apply agrees_self; intros x; apply entry_has, Hr|auto|]. intros x Hx _. apply entry_tracks; auto.
Qed.
Lemma mat_scale_tracks m s : MP m -> mown_or P s -> tracks MP (mat_scale_assign op m s) (mat_scale_assign' op' m s).
Proof.
  intros Hm Hs. unfold mat_scale_assign, mat_scale_assign'. apply tracks_for2; auto. intros i j d Hd. destruct s as [v|p q]; [apply entry_tracks; auto|].
  destruct (_ && _); [apply entry_tracks; cbn; auto|]. eapply (tracks_eval P); [apply agrees_self; intros a; apply entry_has, Hd|auto|]. intros a Ha _. apply entry_tracks; auto.
Qed.
End Loops.

(** *** inplace_rref *)
Context (E E' : ops T).
Hypothesis HR : ring_agrees (same P) E E'.
Hypothesis HD : div_agrees (same P) E E'.
Hypothesis HP : prod_agrees (same P) (same P) E E'.
Hypothesis HM : forall a b a' b', same P a a' -> option_rel (same P) b b' -> agrees (same P) (mulA E a b) (mulA E' a' b').
Lemma op_tracks op op' m i j y : (forall x, P x -> agrees (same P) (op x (Some y)) (op' x (Some y))) -> MP m -> tracks MP (assign_entry op m i j (Some y)) (assign_entry op' m i j (Some y)).
Proof.
  intros Ho Hm. unfold assign_entry. eapply (tracks_eval P); auto.
  - eapply agrees_bind; [apply agrees_self; intros x; apply entry_has, Hm|]. intros a b [-> Ha]. apply Ho, Ha.
  - intros a Ha _. apply tracks_refl. apply set_has; auto.
Qed.
Lemma swap_tracks m a b : MP m -> tracks MP (swap_rows m a b) (swap_rows m a b).
Proof.
  intros Hm. unfold swap_rows. destruct (a =? b); [apply tracks_done, Hm|]. apply tracks_for; auto. intros i d Hd.
  eapply (tracks_eval P); [apply agrees_self; intros x; apply entry_has, Hd|auto|]. intros x Hx _.
  eapply (tracks_eval P); [apply agrees_self; intros y; apply entry_has, Hd|auto|]. intros y Hy _.
  eapply tracks_andthen; [apply tracks_refl, set_has; auto|auto|]. intros s Hs. apply tracks_refl, set_has; auto.
Qed.
Lemma clear_tracks m r p : MP m -> tracks MP (rref_clear E m r p) (rref_clear E' m r p).
Proof.
  intros Hm. unfold rref_clear. apply tracks_for; auto. intros i d Hd. destruct (i =? r); [apply tracks_done, Hd|].
  eapply (tracks_eval P); [apply agrees_self; intros x; apply entry_has, Hd|auto|]. intros v Hv _. apply tracks_for; auto. intros j s Hs.
  eapply (tracks_eval P); auto.
  - eapply agrees_bind; [apply agrees_self; intros x; apply entry_has, Hs|]. intros a b [-> Ha]. apply (ag_mul _ _ _ HR); split; auto.
  - intros q Hq _. apply op_tracks; auto. intros x Hx. apply (ag_subA _ _ _ HR); split; auto.
Qed.
Lemma rref_tracks n : forall r p m, MP m -> tracks MP (rref_rows E n r p m) (rref_rows E' n r p m).
Proof.
  induction n as [|n IH]; intros r p m Hm; cbn [rref_rows]; [apply tracks_done, Hm|]. destruct (_ <=? _); [apply tracks_done, Hm|].
  eapply (tracks_eval (fun _ => True)); auto.
  - eapply agrees_mono; [eapply (find_pivot_agrees (same P)); eauto; apply mat_same, Hm|]. intros a b <-. split; auto.
  - intros [[i q]|] _ _; [|apply tracks_done, Hm]. eapply tracks_andthen; [apply swap_tracks, Hm|auto|]. intros m1 H1.
    eapply (tracks_eval P); [apply agrees_self; intros x; apply entry_has, H1|auto|]. intros v Hv _.
    eapply tracks_andthen; [apply (tracks_for MP); [auto|intros j s Hs; apply op_tracks; auto; intros x Hx; apply (ag_divA _ _ _ HD); split; auto]|auto|]. intros m2 H2.
    eapply tracks_andthen; [apply clear_tracks, H2|auto|]. intros m3 H3. apply IH, H3.
Qed.

(** *** Calls *)
Definition all_have (st : objects T) : Prop := (forall n, P (sc st n)) /\ (forall n, VP (ve st n)) /\ (forall n, MP (ma st n)).
Lemma put_has {A} (Q : A -> Prop) (f : nat -> A) d x : (forall n, Q (f n)) -> Q x -> forall n, Q (put_at f d x n).
Proof. intros H Hx n. unfold put_at. destruct (_ =? _); auto. Qed.
Lemma tracks_final {S} (Q : S -> Prop) (p p' : outcome S) : tracks Q p p' -> agrees (same Q) (final p) (final p').
Proof. intros H. destruct p as [s m]. destruct m; try exact Logic.I; (destruct H as [-> H]; [cbn; congruence|]); cbn in *; auto. split; auto. Qed.
Lemma sc_tracks st d m m' : all_have st -> agrees (same P) m m' -> tracks all_have (to_sc st d m) (to_sc st d m').
Proof.
  intros Hs H. eapply (tracks_eval P); eauto. intros a Ha _. apply tracks_done. destruct Hs as (H1 & H2 & H3). split; [|split]; auto. cbn. apply put_has; auto.
Qed.
Lemma ve_has st d x : all_have st -> VP x -> all_have (set_ve st d x).
Proof. intros (H1 & H2 & H3) H. split; [|split]; auto. cbn. apply put_has; auto. Qed.
Lemma ma_has st d x : all_have st -> MP x -> all_have (set_ma st d x).
Proof. intros (H1 & H2 & H3) H. split; [|split]; auto. cbn. apply put_has; auto. Qed.
Lemma ve_tracks st d m m' : all_have st -> agrees (same VP) m m' -> tracks all_have (to_ve st d m) (to_ve st d m').
Proof. intros Hs H. eapply (tracks_eval VP); eauto. intros a Ha _. apply tracks_done, ve_has; auto. Qed.
Lemma ma_tracks st d m m' : all_have st -> agrees (same MP) m m' -> tracks all_have (to_ma st d m) (to_ma st d m').
Proof. intros Hs H. eapply (tracks_eval MP); eauto. intros a Ha _. apply tracks_done, ma_has; auto. Qed.
Lemma bo_tracks st d m m' : all_have st -> agrees eq m m' -> tracks all_have (to_bo st d m) (to_bo st d m').
Proof.
  intros Hs H. eapply (tracks_eval (fun _ => True)); auto; [eapply agrees_mono; [exact H|]; intros a b <-; split; auto|].
  intros a _ _. apply tracks_done. exact Hs.
Qed.
Lemma in_ve_tracks st d p p' : all_have st -> tracks VP p p' -> tracks all_have (in_ve st d p) (in_ve st d p').
Proof. intros Hs H D. destruct (H D) as [-> Hp]. split; auto. apply ve_has; auto. Qed.
Lemma in_ma_tracks st d p p' : all_have st -> tracks MP p p' -> tracks all_have (in_ma st d p) (in_ma st d p').
Proof. intros Hs H D. destruct (H D) as [-> Hp]. split; auto. apply ma_has; auto. Qed.

Lemma zero_same : of_int E' 0 = of_int E 0 /\ P (of_int E 0).
Proof. apply (ag_const _ _ _ HR). cbn. auto. Qed.
Lemma size_same n : Vec_size E' n = Vec_size E n /\ VP (Vec_size E n).
Proof. unfold Vec_size. destruct zero_same as [-> H]. split; auto. apply Forall_forall. intros x Hx. apply repeat_spec in Hx. congruence. Qed.
Lemma push_has l : VP l -> forall n, agrees (same VP) (push_all Ok l n) (push_all Ok l n).
Proof.
  intros Hl n. apply tracks_final, tracks_for; auto. intros i d Hd. eapply (tracks_eval P); [|auto|intros a Ha _; apply tracks_done, Forall_app; auto].
  apply agrees_self. intros a Ha. destruct (get_at l i) as [b|e| | |] eqn:G; cbn in Ha; try discriminate. injection Ha as <-. exact (get_has _ _ _ Hl G).
Qed.
Lemma const_has n v : P v -> agrees (same VP) (constantVec E n v) (constantVec E' n v).
Proof.
  intros Hv. unfold constantVec, setEntries_val. destruct (size_same n) as [-> _]. apply agrees_self. cbn. intros a [= <-]. apply Forall_forall. intros x Hx.
  apply repeat_spec in Hx. congruence.
Qed.
Lemma cat_has x y : VP x -> VP y -> agrees (same VP) (concatenate E x y) (concatenate E' x y).
Proof.
  intros Hx Hy. unfold concatenate. destruct (size_same (length x + length y)) as [-> H]. apply tracks_final.
  eapply tracks_andthen; [apply (tracks_for VP); [auto|]|auto|].
  - intros i d Hd. eapply (tracks_eval P); [apply agrees_self; intros a; apply get_has, Hx|auto|]. intros a Ha _. apply tracks_done, replace_has; auto.
  - intros s Hs. apply tracks_for; auto. intros i d Hd. eapply (tracks_eval P); [apply agrees_self; intros a; apply get_has, Hy|auto|]. intros a Ha _. apply tracks_done, replace_has; auto.
Qed.
Lemma some_has x : VP x -> Forall2 (option_rel (same P)) (map Some x) (map Some x).
Proof. intros H. induction H; cbn; constructor; auto. split; auto. Qed.
Lemma some_opt x : VP x -> Forall (opt_all P) (map Some x).
Proof. intros H. induction H; cbn; constructor; auto. Qed.
Lemma diag_has x n : VP x -> agrees (same MP) (diagonalMatrix E (map Some x) n) (diagonalMatrix E' (map Some x) n).
Proof.
  intros Hx. unfold diagonalMatrix. eapply (agrees_bind (same MP)).
  - apply agrees_mat. eapply Mat_val_agrees; eauto. destruct zero_same as [-> H]. split; auto.
  - intros a b [-> Ha]. apply tracks_final, tracks_for; auto. intros i d Hd.
    eapply (tracks_eval P); [apply agrees_self; intros v; apply read_has, some_opt, Hx|auto|]. intros v Hv _. apply tracks_refl, set_has; auto.
Qed.
Lemma array_has x r c : VP x -> agrees (same MP) (Mat_array E (map Some x) r c) (Mat_array E' (map Some x) r c).
Proof. intros Hx. apply agrees_mat. unfold Mat_array. apply setEntries_agrees; [eapply Mat_new_agrees; eauto|apply some_has, Hx]. Qed.
Lemma made_tracks (x : Mat T) (m m' : res (Mat T)) : MP x -> agrees (same MP) m m' ->
  tracks MP (match m with Ok r => done r | Throw e => (x, _ <- @Throw (Mat T) e ;; Ok tt) | Abort => (x, _ <- @Abort (Mat T) ;; Ok tt) | UB => (x, _ <- @UB (Mat T) ;; Ok tt) | OutOfFuel => (x, _ <- @OutOfFuel (Mat T) ;; Ok tt) end) 
         (match m' with Ok r => done r | Throw e => (x, _ <- @Throw (Mat T) e ;; Ok tt) | Abort => (x, _ <- @Abort (Mat T) ;; Ok tt) | UB => (x, _ <- @UB (Mat T) ;; Ok tt) | OutOfFuel => (x, _ <- @OutOfFuel (Mat T) ;; Ok tt) end).
Proof.
  intros Hx H. destruct m as [a|e| | |], m' as [b|e'| | |]; cbn in *; try contradiction; try (intros D; cbn in *; congruence).
  - destruct H as [-> H]. apply tracks_done, H.
  - subst. apply tracks_refl, Hx.
  - apply tracks_refl, Hx.
  - apply tracks_refl, Hx.
Qed.

Definition compound (c : lcall) : bool :=
  match c with
  | VAssign _ _ _ | VMulA _ _ | VDivA _ _ | VMulOwn _ _ | VDivOwn _ _ | MAssign _ _ _ | MMulA _ _ | MDivA _ _ | MMulOwn _ _ _ | MDivOwn _ _ _ => true
  | _ => false
  end.
Lemma plain_tracks st c : all_have st -> (forall d k, c = Lit d k -> of_int E' k = of_int E k /\ P (of_int E k)) -> compound c = false ->
  tracks all_have (perform E st c) (perform E' st c).
Proof.
  intros Hst HL Hc. pose proof Hst as (Hs & Hv & Hm).
  assert (SS : forall n, same P (sc st n) (sc st n)) by (intros n; split; auto).
  assert (SV : forall n, vec_sim (same P) (ve st n) (ve st n)) by (intros n; apply vec_same; auto).
  assert (SM : forall n, mat_agrees (same P) (ma st n) (ma st n)) by (intros n; apply mat_same; auto).
  assert (Ho : forall d b, rd (ma st d) (operand (ma st) d b) = ma st b) by (intros d b; unfold operand; destruct (Nat.eqb_spec d b) as [->|]; reflexivity).
  destruct c; try discriminate; cbn [perform]; try destruct o.
  - apply sc_tracks; auto. destruct (HL d k eq_refl) as [-> H]. split; auto.
  - apply sc_tracks; auto. apply (ag_neg _ _ _ HR); auto.
  - apply sc_tracks; auto. apply (ag_add _ _ _ HR); auto.
  - apply sc_tracks; auto. apply (ag_sub _ _ _ HR); auto.
  - apply sc_tracks; auto. apply (ag_mul _ _ _ HR); auto.
  - apply sc_tracks; auto. apply (ag_div _ _ _ HD); auto.
  - apply ve_tracks; auto. exact (size_same n).
  - apply ve_tracks; auto. apply const_has; auto.
  - apply in_ve_tracks; auto. apply tracks_refl. cbn. apply Forall_forall. intros x Hx. apply repeat_spec in Hx. subst. auto.
  - apply ve_tracks; auto. apply push_has; auto.
  - apply sc_tracks; auto. apply agrees_self. intros x. apply get_has; auto.
  - apply ve_tracks; auto. apply agrees_self. intros x. destruct (_ <? _); [|discriminate]. intros [= <-]. apply replace_has; auto.
  - apply ve_tracks; auto. apply agrees_vec. apply vec_binary_agrees; auto. apply (ag_addA _ _ _ HR).
  - apply ve_tracks; auto. apply agrees_vec. apply vec_binary_agrees; auto. apply (ag_subA _ _ _ HR).
  - apply ve_tracks; auto. apply agrees_vec. apply agrees_final. apply scale_assign_agrees; [exact HM|auto|cbn; auto].
  - apply ve_tracks; auto. apply agrees_vec. apply agrees_final. apply scale_assign_agrees; [apply (ag_divA _ _ _ HD)|auto|cbn; auto].
  - apply bo_tracks; auto. eapply V_eq_agrees; eauto.
  - apply ve_tracks; auto. apply cat_has; auto.
  - apply sc_tracks; auto. eapply dot_agrees; eauto.
  - apply ve_tracks; auto. apply agrees_vec. eapply cross_agrees; eauto.
  - apply sc_tracks; auto. unfold scalar_triple_product. eapply agrees_bind; [eapply cross_agrees; eauto|]. intros x x' Hx. eapply dot_agrees; eauto.
  - apply ve_tracks; auto. apply agrees_vec. unfold vector_triple_product. eapply agrees_bind; [eapply cross_agrees; eauto|]. intros x x' Hx. eapply cross_agrees; eauto.
  - apply ma_tracks; auto. apply agrees_mat. eapply Mat_val_agrees; eauto.
  - apply ma_tracks; auto. apply array_has; auto.
  - apply ma_tracks; auto. apply agrees_mat. eapply identity_agrees; eauto.
  - apply ma_tracks; auto. apply diag_has; auto.
  - apply in_ma_tracks; auto. unfold M_assign. rewrite Ho. apply made_tracks; auto. apply agrees_mat. eapply Mat_copy_agrees; eauto.
  - apply sc_tracks; auto. apply agrees_self. intros x. apply entry_has; auto.
  - apply in_ma_tracks; auto. apply tracks_refl, set_has; auto.
  - apply ma_tracks; auto. apply agrees_mat. eapply M_neg_agrees; eauto.
  - apply ma_tracks; auto. apply agrees_mat. eapply mat_binary_agrees; eauto. apply (ag_add _ _ _ HR).
  - apply ma_tracks; auto. apply agrees_mat. eapply mat_binary_agrees; eauto. apply (ag_sub _ _ _ HR).
  - apply ma_tracks; auto. apply agrees_mat. eapply M_scale_agrees; eauto.
  - apply ma_tracks; auto. apply agrees_mat. eapply M_div_agrees; eauto.
  - apply ma_tracks; auto. apply agrees_mat. eapply M_product_agrees; eauto.
  - apply in_ma_tracks; auto. unfold M_product_assign. rewrite Ho. apply made_tracks; auto. apply agrees_mat. eapply M_product_agrees; eauto.
  - apply bo_tracks; auto. eapply M_eq_agrees; eauto.
  - apply ma_tracks; auto. apply agrees_mat. eapply transpose_agrees; eauto.
  - apply sc_tracks; auto. eapply trace_agrees; eauto.
  - apply ma_tracks; auto. apply agrees_mat. eapply first_minor_agrees; eauto.
  - apply ma_tracks; auto. apply agrees_mat. eapply cofactor_agrees; eauto.
  - apply ma_tracks; auto. apply agrees_mat. eapply augmented_agrees; eauto.
  - apply sc_tracks; auto. eapply row_cofactor_expansion_agrees; eauto.
  - apply sc_tracks; auto. eapply col_cofactor_expansion_agrees; eauto.
  - apply sc_tracks; auto. eapply determinant_agrees; eauto.
  - apply ma_tracks; auto. apply agrees_mat. eapply rref_agrees; eauto.
  - apply in_ma_tracks; auto. apply rref_tracks; auto.
  - apply ma_tracks; auto. apply agrees_mat. eapply inverse_agrees; eauto.
Qed.
End Agree.

(** *** Int *)
Local Open Scope Z_scope.
Lemma sound_agrees o x y m m' : sound o x y m -> keeps m m' -> (m = Throw DivideByZero -> m' = Throw DivideByZero) -> agrees (same wf) m m'.
Proof.
  intros [(r & -> & W & _)|[(_ & _ & ->)|(_ & ->)]] K H; cbn; auto.
  - rewrite (K r eq_refl). split; auto.
  - rewrite H by auto. reflexivity.
Qed.
Lemma released_throw (m m' : res Int) : m' = released m -> m = Throw DivideByZero -> m' = Throw DivideByZero.
Proof. intros -> ->. reflexivity. Qed.
Lemma int_add_agrees x y : wf x -> wf y -> agrees (same wf) (op_add x y) (op_add_nd x y).
Proof. intros. eapply sound_agrees; [apply (binary_sound Add); auto|apply op_add_keeps|]. intros E. exfalso. destruct (binary_sound Add x y) as [(r & E' & _)|[([|] & _)|(_ & E')]]; auto; cbn in *; congruence. Qed.
Lemma int_sub_agrees x y : wf x -> wf y -> agrees (same wf) (op_sub x y) (op_sub_nd x y).
Proof. intros. eapply sound_agrees; [apply (binary_sound Sub); auto|apply op_sub_keeps|]. intros E. exfalso. destruct (binary_sound Sub x y) as [(r & E' & _)|[([|] & _)|(_ & E')]]; auto; cbn in *; congruence. Qed.
Lemma int_mul_agrees x y : wf x -> wf y -> agrees (same wf) (op_mul x y) (op_mul_nd x y).
Proof. intros. eapply sound_agrees; [apply (binary_sound Mul); auto|apply op_mul_keeps|]. intros E. exfalso. destruct (binary_sound Mul x y) as [(r & E' & _)|[([|] & _)|(_ & E')]]; auto; cbn in *; congruence. Qed.
Lemma int_div_agrees' x y : wf x -> wf y -> agrees (same wf) (op_div x y) (op_div_nd x y).
Proof. intros. eapply sound_agrees; [apply div_sound; auto|apply op_div_keeps|]. apply released_throw, op_div_released; auto. Qed.
Lemma assign_wf (x : Int) y : opt_all wf y -> forall z : Int, y = Some z -> wf z.
Proof. intros H z ->. exact H. Qed.
Lemma int_addA_agrees x y : wf x -> opt_all wf y -> agrees (same wf) (add_assign x y) (add_assign_nd x y).
Proof.
  intros Wx Wy. pose proof (assign_sound Add x y Wx (assign_wf x y Wy)) as S. eapply sound_agrees; [exact S|apply add_assign_keeps|].
  intros E. exfalso. destruct S as [(r & E' & _)|[([|] & _)|(_ & E')]]; cbn in *; congruence.
Qed.
Lemma int_subA_agrees x y : wf x -> opt_all wf y -> agrees (same wf) (sub_assign x y) (sub_assign_nd x y).
Proof.
  intros Wx Wy. pose proof (assign_sound Sub x y Wx (assign_wf x y Wy)) as S. eapply sound_agrees; [exact S|apply sub_assign_keeps|].
  intros E. exfalso. destruct S as [(r & E' & _)|[([|] & _)|(_ & E')]]; cbn in *; congruence.
Qed.
Lemma int_mulA_agrees x y : wf x -> opt_all wf y -> agrees (same wf) (mul_assign x y) (mul_assign_nd x y).
Proof.
  intros Wx Wy. destruct (mul_assign_ok x y Wx (assign_wf x y Wy)) as (r & E & W & _). rewrite E, (mul_assign_keeps _ _ _ E). split; auto.
Qed.
Lemma int_ring_agrees : ring_agrees (same wf) Int_ops Int_ops_nd.
Proof.
  split; cbn [of_int fresh add sub mul neg eqb addA subA Int_ops Int_ops_nd].
  - intros k Hk. split; auto. destruct (Int_const_exact k) as [C _]; [cbn in Hk; lia|]. apply C.
  - split; auto. destruct (Int_const_exact 0) as [C _]; [lia|]. apply C.
  - intros x y x' y' [-> Wx] [-> Wy]. apply int_add_agrees; auto.
  - intros x y x' y' [-> Wx] [-> Wy]. apply int_sub_agrees; auto.
  - intros x y x' y' [-> Wx] [-> Wy]. apply int_mul_agrees; auto.
  - intros x x' [-> Wx]. destruct (op_neg_ok x Wx) as (r & -> & _ & _ & W & _). split; auto.
  - intros x y x' y' [-> Wx] [-> Wy]. rewrite op_eq_spec by auto. reflexivity.
  - intros x y x' y' [-> Wx] Hy. apply opt_same in Hy as [-> Hy]. apply int_addA_agrees; auto.
  - intros x y x' y' [-> Wx] Hy. apply opt_same in Hy as [-> Hy]. apply int_subA_agrees; auto.
Qed.
Lemma int_div_agrees : div_agrees (same wf) Int_ops Int_ops_nd.
Proof.
  split; cbn [div divA Int_ops Int_ops_nd].
  - intros x y x' y' [-> Wx] [-> Wy]. apply int_div_agrees'; auto.
  - intros x y x' y' [-> Wx] Hy. apply opt_same in Hy as [-> Hy]. apply (int_div_agrees' x (rd x y)); auto using opt_wf.
Qed.
Lemma int_prod_agrees : prod_agrees (same wf) (same wf) Int_ops Int_ops_nd.
Proof.
  split; auto.
  - intros x y x' y' [-> Wx] [-> Wy]. apply int_mulA_agrees; auto.
  - apply (ag_div _ _ _ int_div_agrees).
Qed.
Lemma sum_step o : in_step wf (match o with Plus => addA Int_ops | Minus => subA Int_ops end) (sum_assign o).
Proof.
  intros x y Wx Wy. destruct o; cbn [addA subA Int_ops sum_assign].
  - destruct (assign_sound Add x y Wx (assign_wf x y Wy)) as [(r & E & W & _)|[([|] & _)|(_ & E)]]; try discriminate; cbn [assign] in E; rewrite E; auto.
    split; auto. apply (addsub_left_keeps false), E.
  - destruct (assign_sound Sub x y Wx (assign_wf x y Wy)) as [(r & E & W & _)|[([|] & _)|(_ & E)]]; try discriminate; cbn [assign] in E; rewrite E; auto.
    split; auto. apply (addsub_left_keeps true), E.
Qed.
Lemma mul_step : in_step wf (mulA Int_ops) mul_assign_left.
Proof.
  intros x y Wx Wy. cbn [mulA Int_ops]. destruct (mul_assign_ok x y Wx (assign_wf x y Wy)) as (r & E & W & _). rewrite E. split; auto.
  unfold mul_assign_left. rewrite (mul_assign_keeps _ _ _ E). reflexivity.
Qed.
Lemma div_step : in_step wf (divA Int_ops) div_assign_nd.
Proof.
  intros x y Wx Wy. cbn [divA Int_ops]. pose proof (opt_wf _ _ Wx Wy) as W'.
  destruct (div_sound x (rd x y) Wx W') as [(r & E & W & _)|[(_ & Z0 & E)|(_ & E)]]; change (div_assign x y) with (op_div x (rd x y)); rewrite E; auto.
  - split; auto. apply divide_keeps. exact E.
  - apply quotient_zero; auto. split; auto.
Qed.
Definition literal_ok (c : lcall) : Prop := match c with Lit _ k => INT64_MIN < k <= INT64_MAX | _ => True end.
Lemma int_tracks st c : all_have wf st -> literal_ok c -> tracks (all_have wf) (perform Int_ops st c) (nd_perform st c).
Proof.
  intros H L. destruct (compound c) eqn:C.
  - pose proof H as (Hs & Hv & Hm).
    assert (Ov : forall d b, opt_all (Forall wf) (operand (ve st) d b)) by (intros d b; unfold operand; destruct (Nat.eqb d b); cbn; auto).
    assert (Om : forall d b, opt_all (entries_have wf) (operand (ma st) d b)) by (intros d b; unfold operand; destruct (Nat.eqb d b); cbn; auto).
    destruct c; try discriminate; cbn [perform nd_perform].
    + destruct o; apply in_ve_tracks; auto; apply vec_assign_tracks; auto; [apply (sum_step Plus)|apply (sum_step Minus)].
    + apply in_ve_tracks; auto. apply scale_assign_tracks; cbn; auto. apply mul_step.
    + apply in_ve_tracks; auto. apply scale_assign_tracks; cbn; auto. apply div_step.
    + apply in_ve_tracks; auto. apply scale_assign_tracks; cbn; auto. apply mul_step.
    + apply in_ve_tracks; auto. apply scale_assign_tracks; cbn; auto. apply div_step.
    + destruct o; apply in_ma_tracks; auto; apply mat_assign_tracks; auto; [apply (sum_step Plus)|apply (sum_step Minus)].
    + apply in_ma_tracks; auto. apply mat_scale_tracks; cbn; auto. apply mul_step.
    + apply in_ma_tracks; auto. apply mat_scale_tracks; cbn; auto. apply div_step.
    + apply in_ma_tracks; auto. apply mat_scale_tracks; cbn; auto. apply mul_step.
    + apply in_ma_tracks; auto. apply mat_scale_tracks; cbn; auto. apply div_step.
  - assert (E : nd_perform st c = perform Int_ops_nd st c) by (destruct c; try discriminate; reflexivity). rewrite E. apply plain_tracks; auto.
    + apply int_ring_agrees.
    + apply int_div_agrees.
    + apply int_prod_agrees.
    + intros a b a' b' [-> Ha] Hb. apply opt_same in Hb as [-> Hb]. apply int_mulA_agrees; auto.
    + intros d k ->. cbn in L. split; auto. cbn. destruct (R_int_any _ _ (const64 k L)) as [W _]. exact W.
Qed.
Theorem int_same p : forall st, all_have wf st -> Forall literal_ok p -> execute Int_ops st p <> Abort -> nd_execute st p = execute Int_ops st p.
Proof.
  induction p as [|c p IH]; intros st H L N; [reflexivity|]. inversion L as [|? ? L1 L2]; subst. cbn [execute nd_execute] in *.
  pose proof (int_tracks st c H L1) as K. destruct (perform Int_ops st c) as [st' m]. unfold tracks in K. cbn [fst snd] in K.
  destruct m as [[]|e| | |]; try (destruct K as [-> K]; [congruence|]); auto; try congruence.
  - rewrite (IH st'); auto. intros A. rewrite A in N. apply N. reflexivity.
  - rewrite (IH st'); auto. intros A. rewrite A in N. apply N. reflexivity.
Qed.
Lemma nd_app p q : forall st, nd_execute st (p ++ q) = ' (s, l) <- nd_execute st p ;; ' (s', l') <- nd_execute s q ;; Ok (s', l ++ l').
Proof.
  induction p as [|c p IH]; intros st; cbn [app nd_execute].
  - cbn [bind]. destruct (nd_execute st q) as [[s l]|e| | |]; reflexivity.
  - destruct (nd_perform st c) as [st' m]. destruct m; auto; rewrite IH; destruct (nd_execute st' p) as [[s l]|e'| | |]; cbn [bind]; auto;
      destruct (nd_execute s q) as [[s' l']|e'| | |]; reflexivity.
Qed.
Theorem int_until st p q s l : all_have wf st -> Forall literal_ok p -> execute Int_ops st p = Ok (s, l) ->
  nd_execute st (p ++ q) = ' (s', l') <- nd_execute s q ;; Ok (s', l ++ l').
Proof. intros H L E. rewrite nd_app, int_same by (auto; congruence). rewrite E. reflexivity. Qed.
