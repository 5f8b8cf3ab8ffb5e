(** A program of Vec<Frac> and Mat<Frac> calls that fails no assertion does the same without them. *)
From Coq Require Import Lia.
From Verif Require Import Base IntModel IntSpec IntBasics IntAddSub IntMul IntDiv IntMod PropsInt IntCalls FracModel FracSpec FracProofs PropsFrac ElemModel ElemSpec ElemProofs ElemInst VecModel MatModel
  LeaveModel SimSpec SimProofs LinSpec LinCalls LinInst ReleaseModel ReleaseSpec ReleaseProofs ReleaseProofs2 FracReleaseModel FracReleaseCallsProofs
  ContReleaseModel ContReleaseSpec ContReleaseInst LinReleaseModel LinReleaseProofs AgreeProofs LinAgreeProofs LinFracModel.
Local Open Scope Z_scope.

(** *** Int *)
Lemma agrees_refl {A} (m : res A) : agrees eq m m.
Proof. destruct m; cbn; auto. Qed.
Lemma same_refl {A} (P : A -> Prop) x : P x -> same P x x.
Proof. split; auto. Qed.
Lemma negate_agrees x : wf x -> agrees (same wf) (negate x) (negate x).
Proof. intros W. destruct (negate_ok x W) as (r & -> & _ & _ & W' & _). split; auto. Qed.
Lemma abs_agrees x : wf x -> agrees (same wf) (abs_Int x) (abs_Int x).
Proof. intros W. destruct (abs_Int_ok x W) as (r & -> & W' & _). split; auto. Qed.
Lemma mod_agrees x y : wf x -> wf y -> agrees (same wf) (op_mod x y) (op_mod_nd x y).
Proof.
  intros Wx Wy. unfold op_mod, op_mod_nd, modulo, modulo_nd.
  eapply (agrees_bind (same wf)). { destruct (negative x); [apply negate_agrees, Wx|apply (same_refl wf), Wx]. } intros a a' [-> Wa].
  eapply (agrees_bind (same wf)). { destruct (negative y); [apply negate_agrees, Wy|apply (same_refl wf), Wy]. } intros b b' [-> Wb].
  eapply agrees_bind; [apply int_div_agrees'; auto|]. intros q q' [-> Wq].
  eapply agrees_bind; [apply int_mul_agrees; auto|]. intros qb qb' [-> Wqb].
  eapply agrees_bind; [apply int_sub_agrees; auto|]. intros r r' [-> Wr].
  eapply agrees_bind; [apply agrees_refl|]. intros z z' <-.
  destruct z; [apply (same_refl wf), Wr|]. destruct (negative x && negative y)%bool; [apply negate_agrees, Wr|].
  destruct (negb (negative x) && negative y)%bool; [apply int_addA_agrees; auto|].
  destruct (negative x && negb (negative y))%bool; [apply int_sub_agrees; auto|apply (same_refl wf), Wr].
Qed.
Lemma gcd_loop_agrees f : forall a b, wf a -> wf b -> agrees (same wf) (gcd_loop f a b) (gcd_loop_nd f a b).
Proof.
  induction f as [|f IH]; intros a b Wa Wb; cbn [gcd_loop gcd_loop_nd]; [exact I|]. eapply agrees_bind; [apply agrees_refl|]. intros z z' <-.
  destruct z; [apply (same_refl wf), Wa|]. eapply agrees_bind; [apply mod_agrees; auto|]. intros r r' [-> Wr]. apply IH; auto.
Qed.
Lemma gcd_agrees x y : wf x -> wf y -> agrees (same wf) (GCD x y) (GCD_nd x y).
Proof.
  intros Wx Wy. unfold GCD, GCD_nd, nochecks_gcd, nochecks_gcd_nd. eapply agrees_bind; [apply abs_agrees, Wx|]. intros a a' [-> Wa].
  eapply agrees_bind; [apply abs_agrees, Wy|]. intros b b' [-> Wb]. eapply agrees_bind; [apply agrees_refl|]. intros l l' <-. destruct l; apply gcd_loop_agrees; auto.
Qed.

(** *** Frac *)
Lemma fthen_tracks p p' k k' : tracks wfrac p p' -> (forall f, wfrac f -> tracks wfrac (k f) (k' f)) -> tracks wfrac (fthen p k) (fthen p' k').
Proof. intros H K. exact (tracks_andthen wfrac wfrac p p' k k' H (fun s h => h) K). Qed.
Lemma fail_tracks {A} f (m m' : res A) : wfrac f -> agrees (fun _ _ => True) m m' -> tracks wfrac (fail_with f m) (fail_with f m').
Proof. intros W H. destruct m, m'; cbn in *; try contradiction; subst; try (apply tracks_refl; exact W); intros D; cbn in D; congruence. Qed.
Lemma top_tracks f m m' : wfrac f -> agrees (same wf) m m' -> tracks wfrac (set_top f m) (set_top f m').
Proof.
  intros W H. destruct m as [a|e| | |], m' as [b|e'| | |]; cbn in *; try contradiction; try (intros D; cbn in D; congruence).
  - destruct H as [-> H]. apply tracks_refl. split; auto. apply W.
  - subst. apply tracks_refl, W.
  - apply tracks_refl, W.
  - apply tracks_refl, W.
Qed.
Lemma bot_tracks f m m' : wfrac f -> agrees (same wf) m m' -> tracks wfrac (set_bot f m) (set_bot f m').
Proof.
  intros W H. destruct m as [a|e| | |], m' as [b|e'| | |]; cbn in *; try contradiction; try (intros D; cbn in D; congruence).
  - destruct H as [-> H]. apply tracks_refl. split; auto. apply W.
  - subst. apply tracks_refl, W.
  - apply tracks_refl, W.
  - apply tracks_refl, W.
Qed.
Lemma put_top_tracks f c : wfrac f -> wf c -> tracks wfrac (set_top f (div_assign (top f) (Some c))) (put_top f (div_assign_nd (top f) (Some c))).
Proof.
  intros W Wc. pose proof (div_step (top f) (Some c) (proj1 W) Wc) as H. cbn [divA Int_ops] in H. unfold put_top. destruct f as [t b]. cbn [top bot] in *.
  destruct (div_assign t (Some c)) as [r|e| | |]; try contradiction; cbn [set_top fail_with]; try (intros D; cbn in D; congruence).
  - destruct H as [Wr ->]. apply tracks_refl. split; auto. apply W.
  - rewrite H. apply tracks_refl. exact W.
Qed.
Lemma put_bot_tracks f c : wfrac f -> wf c -> tracks wfrac (set_bot f (div_assign (bot f) (Some c))) (put_bot f (div_assign_nd (bot f) (Some c))).
Proof.
  intros W Wc. pose proof (div_step (bot f) (Some c) (proj2 W) Wc) as H. cbn [divA Int_ops] in H. unfold put_bot. destruct f as [t b]. cbn [top bot] in *.
  destruct (div_assign b (Some c)) as [r|e| | |]; try contradiction; cbn [set_bot fail_with]; try (intros D; cbn in D; congruence).
  - destruct H as [Wr ->]. apply tracks_refl. split; auto. apply W.
  - rewrite H. apply tracks_refl. exact W.
Qed.
Lemma normalize_tracks f : wfrac f -> tracks wfrac (normalize f) (normalize_nd f).
Proof.
  intros W. unfold normalize, normalize_nd. apply fthen_tracks.
  - destruct (is_negative (bot f)); [|apply tracks_refl, W]. apply fthen_tracks; [apply bot_tracks; auto; apply negate_agrees, W|].
    intros g Wg. apply top_tracks; auto. apply negate_agrees, Wg.
  - intros g Wg. pose proof (gcd_agrees (top g) (bot g) (proj1 Wg) (proj2 Wg)) as H.
    destruct (GCD (top g) (bot g)) as [c|e| | |], (GCD_nd (top g) (bot g)) as [c'|e'| | |]; cbn in H; try contradiction; try (intros D; cbn in D; congruence).
    + destruct H as [-> Wc]. apply fthen_tracks; [apply put_top_tracks; auto|]. intros h Wh. apply put_bot_tracks; auto.
    + subst. apply tracks_refl, Wg.
    + apply tracks_refl, Wg.
    + apply tracks_refl, Wg.
Qed.
Lemma make_agrees t b : wf t -> wf b -> agrees (same wfrac) (Frac_make t b) (Frac_make_nd t b).
Proof.
  intros Wt Wb. unfold Frac_make, Frac_make_nd. eapply agrees_bind; [apply agrees_refl|]. intros z z' <-. destruct z; [reflexivity|].
  apply (tracks_final wfrac). apply normalize_tracks. split; auto.
Qed.
Ltac mul := eapply agrees_bind; [apply int_mul_agrees; auto|]; intros ? ? [-> ?].
Lemma F_add_agrees x y : wfrac x -> wfrac y -> agrees (same wfrac) (F_add x y) (F_add_nd x y).
Proof. intros [? ?] [? ?]. unfold F_add, F_add_nd. mul. mul. eapply agrees_bind; [apply int_add_agrees; auto|]. intros ? ? [-> ?]. mul. apply make_agrees; auto. Qed.
Lemma F_sub_agrees x y : wfrac x -> wfrac y -> agrees (same wfrac) (F_sub x y) (F_sub_nd x y).
Proof. intros [? ?] [? ?]. unfold F_sub, F_sub_nd. mul. mul. eapply agrees_bind; [apply int_sub_agrees; auto|]. intros ? ? [-> ?]. mul. apply make_agrees; auto. Qed.
Lemma F_mul_agrees x y : wfrac x -> wfrac y -> agrees (same wfrac) (F_mul x y) (F_mul_nd x y).
Proof. intros [? ?] [? ?]. unfold F_mul, F_mul_nd. mul. mul. apply make_agrees; auto. Qed.
Lemma F_div_agrees x y : wfrac x -> wfrac y -> agrees (same wfrac) (F_div x y) (F_div_nd x y).
Proof. intros [? ?] [? ?]. unfold F_div, F_div_nd. mul. mul. apply make_agrees; auto. Qed.
Lemma rd_wfrac x y : wfrac x -> opt_all wfrac y -> wfrac (rd x y).
Proof. destruct y; auto. Qed.
Lemma bot_of_wf y : opt_all wfrac y -> opt_all wf (bot_of y).
Proof. destruct y; cbn; auto. intros [? ?]; auto. Qed.
Lemma top_of_wf y : opt_all wfrac y -> opt_all wf (top_of y).
Proof. destruct y; cbn; auto. intros [? ?]; auto. Qed.
Lemma addsub_tracks op op' x y : (forall a b, wf a -> wf b -> agrees (same wf) (op a b) (op' a b)) -> wfrac x -> opt_all wfrac y ->
  tracks wfrac (F_addsub_assign op x y) (F_addsub_assign_nd op' x y).
Proof.
  intros Ho Wx Wy. unfold F_addsub_assign, F_addsub_assign_nd. cbv zeta. destruct (rd_wfrac x y Wx Wy) as [? ?]. pose proof Wx as [? ?]. apply fthen_tracks.
  - apply top_tracks; auto. mul. mul. apply Ho; auto.
  - intros f Wf. apply fthen_tracks; [|exact normalize_tracks]. apply bot_tracks; auto. apply int_mulA_agrees; [apply Wf|apply bot_of_wf, Wy].
Qed.
Lemma F_mulA_tracks x y : wfrac x -> opt_all wfrac y -> tracks wfrac (F_mul_assign x y) (F_mul_assign_nd x y).
Proof.
  intros Wx Wy. unfold F_mul_assign, F_mul_assign_nd. apply fthen_tracks; [apply top_tracks; auto; apply int_mulA_agrees; [apply Wx|apply top_of_wf, Wy]|].
  intros f Wf. apply fthen_tracks; [|exact normalize_tracks]. apply bot_tracks; auto. apply int_mulA_agrees; [apply Wf|apply bot_of_wf, Wy].
Qed.
Lemma F_divA_tracks x y : wfrac x -> opt_all wfrac y -> tracks wfrac (F_div_assign x y) (F_div_assign_nd x y).
Proof.
  intros Wx Wy. unfold F_div_assign, F_div_assign_nd. cbv zeta. destruct (rd_wfrac x y Wx Wy) as [? ?].
  apply fthen_tracks; [apply top_tracks; auto; apply int_mulA_agrees; [apply Wx|cbn; auto]|].
  intros f Wf. apply fthen_tracks; [|exact normalize_tracks]. apply bot_tracks; auto. apply int_mulA_agrees; [apply Wf|cbn; auto].
Qed.
Lemma F_eq_agrees x y : agrees eq (F_eq x y) (F_eq x y).
Proof. apply agrees_refl. Qed.
Lemma frac_const_wf k : INT32_MIN <= k <= INT32_MAX -> wfrac (frac_const k).
Proof.
  intros Hk. unfold frac_const. destruct (PropsFrac.C32_of_int k Hk) as (f & -> & R & _). destruct R as (C1 & C2 & _). split; apply canonical_wf; assumption.
Qed.
Lemma result_agrees p p' : tracks wfrac p p' -> agrees (same wfrac) (result p) (result p').
Proof. exact (tracks_final wfrac p p'). Qed.
Lemma frac_ring_agrees : ring_agrees (same wfrac) Frac_ops Frac_ops_nd.
Proof.
  assert (C : forall k, In k [0; 1; -1] -> wfrac (frac_const k)) by (intros k Hk; apply frac_const_wf; unfold INT32_MIN, INT32_MAX; cbn in Hk; lia).
  split; cbn [of_int fresh add sub mul neg eqb addA subA Frac_ops Frac_ops_nd].
  - intros k Hk. split; auto.
  - apply (same_refl wfrac). apply C. cbn. auto.
  - intros x y x' y' [-> Wx] [-> Wy]. apply F_add_agrees; auto.
  - intros x y x' y' [-> Wx] [-> Wy]. apply F_sub_agrees; auto.
  - intros x y x' y' [-> Wx] [-> Wy]. apply F_mul_agrees; auto.
  - intros x x' _. exact I.
  - intros x y x' y' [-> Wx] [-> Wy]. apply F_eq_agrees.
  - intros x y x' y' [-> Wx] Hy. apply opt_same in Hy as [-> Hy]. apply result_agrees, addsub_tracks; auto. exact int_add_agrees.
  - intros x y x' y' [-> Wx] Hy. apply opt_same in Hy as [-> Hy]. apply result_agrees, addsub_tracks; auto. exact int_sub_agrees.
Qed.
Lemma frac_div_agrees : div_agrees (same wfrac) Frac_ops Frac_ops_nd.
Proof.
  split; cbn [div divA Frac_ops Frac_ops_nd].
  - intros x y x' y' [-> Wx] [-> Wy]. apply F_div_agrees; auto.
  - intros x y x' y' [-> Wx] Hy. apply opt_same in Hy as [-> Hy]. apply result_agrees, F_divA_tracks; auto.
Qed.
Lemma frac_prod_agrees : prod_agrees (same wfrac) (same wfrac) Frac_ops Frac_ops_nd.
Proof.
  split; auto.
  - intros x y x' y' [-> Wx] [-> Wy]. apply result_agrees, F_mulA_tracks; cbn; auto.
  - apply (ag_div _ _ _ frac_div_agrees).
Qed.

(** *** Loops *)
Section Loops.
Context {T : Type} (P : T -> Prop) (op op' : lop T).
Hypothesis H : forall x y, P x -> opt_all P y -> tracks P (op x y) (op' x y).
Notation VP := (Forall P).
Notation MP := (entries_have P).
Local Open Scope nat_scope.
Lemma at_in x i y : VP x -> opt_all P y -> tracks VP (assign_at' op x i y) (assign_at' op' x i y).
Proof.
  intros Hx Hy. eapply (tracks_eval P); [apply agrees_self; intros a; apply get_has, Hx|exact Hx|]. intros e He _ D. cbn [fst snd] in *.
  destruct (H e y He Hy D) as [-> Hr]. split; auto. apply replace_has; auto.
Qed.
Lemma vec_assign_in x y : VP x -> opt_all VP y -> tracks VP (vec_assign' op x y) (vec_assign' op' x y).
Proof.
  intros Hx Hy. unfold vec_assign'. destruct (negb _); [apply tracks_refl; exact Hx|]. apply tracks_for; auto. intros i s Hs.
  assert (Hr : VP (rd s y)) by (destruct y; auto).
  eapply (tracks_eval P); [apply agrees_self; intros a; apply get_has, Hr|auto|]. intros a Ha _. apply at_in; auto.
Qed.
Lemma scale_assign_in x s : VP x -> own_or P s -> tracks VP (scale_assign' op x s) (scale_assign' op' x s).
Proof.
  intros Hx Hs. unfold scale_assign'. apply tracks_for; auto. intros i d Hd. destruct s as [v|k]; [apply at_in; auto|].
  destruct (i =? k); [apply at_in; cbn; auto|]. eapply (tracks_eval P); [apply agrees_self; intros a; apply get_has, Hd|auto|]. intros a Ha _. apply at_in; auto.
Qed.
Lemma entry_in m i j y : MP m -> opt_all P y -> tracks MP (assign_entry' op m i j y) (assign_entry' op' m i j y).
Proof.
  intros Hm Hy. unfold assign_entry'. destruct (entry m i j) as [e|ex| | |] eqn:G; cbn [eval]; try (apply tracks_refl; exact Hm).
  pose proof (entry_has P _ _ _ _ Hm G) as He. pose proof (H e y He Hy) as K. unfold tracks in K. intros D.
  assert (D' : snd (op e y) <> Abort).
  { intros A. apply D. rewrite A. unfold entry, read in G. unfold set_entry. destruct (nth_error (data m) (offset m i j)) eqn:N; [|discriminate].
    assert (offset m i j < length (data m)) by (apply nth_error_Some; congruence). destruct (Nat.ltb_spec (offset m i j) (length (data m))); [reflexivity|lia]. }
  destruct (K D') as [-> Hr]. split; auto. pose proof (set_has P m i j _ Hm Hr) as S. destruct (set_entry m i j (fst (op e y))) as [m1 [[]|e1| | |]]; cbn in *; auto.
Qed.
Lemma mat_assign_in a b : MP a -> opt_all MP b -> tracks MP (mat_assign' op a b) (mat_assign' op' a b).
Proof.
  intros Ha Hb. unfold mat_assign'. destruct (negb _); [apply tracks_refl; exact Ha|]. apply tracks_for2; auto. intros i j s Hs.
  assert (Hr : MP (rd s b)) by (destruct b; auto).
  eapply (tracks_eval P); [apply agrees_self; intros x; apply entry_has, Hr|auto|]. intros x Hx _. apply entry_in; auto.
Qed.
Lemma mat_scale_in m s : MP m -> mown_or P s -> tracks MP (mat_scale_assign' op m s) (mat_scale_assign' op' m s).
Proof.
  intros Hm Hs. unfold mat_scale_assign'. apply tracks_for2; auto. intros i j d Hd. destruct s as [v|p q]; [apply entry_in; auto|].
  destruct (_ && _); [apply entry_in; cbn; auto|]. eapply (tracks_eval P); [apply agrees_self; intros a; apply entry_has, Hd|auto|]. intros a Ha _. apply entry_in; auto.
Qed.
End Loops.

(** *** Calls and programs *)
Lemma frac_tracks st c : all_have wfrac st -> of_frac c -> tracks (all_have wfrac) (frac_perform st c) (frac_perform_nd st c).
Proof.
  intros H L. unfold frac_perform, frac_perform_nd. destruct (compound c) eqn:C.
  - pose proof H as (Hs & Hv & Hm).
    assert (Ov : forall d b, opt_all (Forall wfrac) (operand (ve st) d b)) by (intros d b; unfold operand; destruct (Nat.eqb d b); cbn; auto).
    assert (Om : forall d b, opt_all (entries_have wfrac) (operand (ma st) d b)) by (intros d b; unfold operand; destruct (Nat.eqb d b); cbn; auto).
    assert (A : forall o x y, wfrac x -> opt_all wfrac y -> tracks wfrac (addsub_op Frac_in_place o x y) (addsub_op Frac_in_place_nd o x y)).
    { intros [] x y Wx Wy; apply addsub_tracks; auto; [exact int_add_agrees|exact int_sub_agrees]. }
    pose proof F_mulA_tracks as M. pose proof F_divA_tracks as D.
    destruct c; try discriminate; cbn [perform_in].
    + apply in_ve_tracks; auto. apply vec_assign_in; auto.
    + apply in_ve_tracks; auto. apply scale_assign_in; cbn; auto.
    + apply in_ve_tracks; auto. apply scale_assign_in; cbn; auto.
    + apply in_ve_tracks; auto. apply scale_assign_in; cbn; auto.
    + apply in_ve_tracks; auto. apply scale_assign_in; cbn; auto.
    + apply in_ma_tracks; auto. apply mat_assign_in; auto.
    + apply in_ma_tracks; auto. apply mat_scale_in; cbn; auto.
    + apply in_ma_tracks; auto. apply mat_scale_in; cbn; auto.
    + apply in_ma_tracks; auto. apply mat_scale_in; cbn; auto.
    + apply in_ma_tracks; auto. apply mat_scale_in; cbn; auto.
  - assert (E1 : perform_in Frac_ops Frac_in_place st c = perform Frac_ops st c) by (destruct c; try discriminate; reflexivity).
    assert (E2 : perform_in Frac_ops_nd Frac_in_place_nd st c = perform Frac_ops_nd st c) by (destruct c; try discriminate; reflexivity).
    rewrite E1, E2. apply plain_tracks; auto.
    + apply frac_ring_agrees.
    + apply frac_div_agrees.
    + apply frac_prod_agrees.
    + intros a b a' b' [-> Ha] Hb. apply opt_same in Hb as [-> Hb]. apply result_agrees, F_mulA_tracks; auto.
    + intros d k ->. split; auto. apply frac_const_wf. cbn [of_frac] in L. unfold INT32_MIN, INT32_MAX. lia.
Qed.
Theorem frac_same p : forall st, all_have wfrac st -> Forall of_frac p -> frac_execute st p <> Abort -> frac_execute_nd st p = frac_execute st p.
Proof.
  unfold frac_execute, frac_execute_nd. induction p as [|c p IH]; intros st H L N; [reflexivity|]. inversion L as [|? ? L1 L2]; subst. cbn [execute_in] in *.
  pose proof (frac_tracks st c H L1) as K. unfold frac_perform, frac_perform_nd in K. destruct (perform_in Frac_ops Frac_in_place st c) as [st' m]. unfold tracks in K. cbn [fst snd] in K.
  destruct m as [[]|e| | |].
  - destruct K as [-> K]; [discriminate|]. rewrite (IH st' K L2); [reflexivity|]. intros A. rewrite A in N. apply N. reflexivity.
  - destruct K as [-> K]; [discriminate|]. rewrite (IH st' K L2); [reflexivity|]. intros A. rewrite A in N. apply N. reflexivity.
  - exfalso. apply N. reflexivity.
  - destruct K as [-> K]; [discriminate|]. reflexivity.
  - destruct K as [-> K]; [discriminate|]. reflexivity.
Qed.
Lemma in_app {T} (E : ops T) I p q : forall st, execute_in E I st (p ++ q) = ' (s, l) <- execute_in E I st p ;; ' (s', l') <- execute_in E I s q ;; Ok (s', l ++ l').
Proof.
  induction p as [|c p IH]; intros st; cbn [app execute_in].
  - cbn [bind]. destruct (execute_in E I st q) as [[s l]|e| | |]; reflexivity.
  - destruct (perform_in E I st c) as [st' m]. destruct m; auto; rewrite IH; destruct (execute_in E I st' p) as [[s l]|e'| | |]; cbn [bind]; auto;
      destruct (execute_in E I s q) as [[s' l']|e'| | |]; reflexivity.
Qed.
Theorem frac_until st p q s l : all_have wfrac st -> Forall of_frac p -> frac_execute st p = Ok (s, l) ->
  frac_execute_nd st (p ++ q) = ' (s', l') <- frac_execute_nd s q ;; Ok (s', l ++ l').
Proof. intros H L E. pose proof (frac_same p st H L) as S. unfold frac_execute_nd in *. rewrite in_app, S; [|rewrite E; discriminate]. rewrite E. reflexivity. Qed.

(** *** Against LinCalls *)
Definition usual {S} (p p' : outcome S) : Prop := snd p = snd p' /\ (snd p = Ok tt -> p = p').
Lemma usual_refl {S} (p : outcome S) : usual p p.
Proof. split; auto. Qed.
Lemma usual_eval {S A} (s : S) (m : res A) k k' : (forall a, usual (k a) (k' a)) -> usual (eval s m k) (eval s m k').
Proof. intros H. destruct m; cbn [eval]; auto using usual_refl. Qed.
Lemma usual_for {S} n : forall a b b' (s : S), (forall i s, usual (b i s) (b' i s)) -> usual (for_ n a b s) (for_ n a b' s).
Proof.
  induction n as [|n IH]; intros a b b' s H; cbn [for_]; [apply usual_refl|]. destruct (H a s) as [E F].
  destruct (b a s) as [s1 r1], (b' a s) as [s2 r2]. cbn [fst snd] in *. subst r2. destruct r1 as [[]| | | |]; cbn [andthen]; try (split; [reflexivity|discriminate]).
  assert (s1 = s2) as -> by (specialize (F eq_refl); congruence). apply IH; auto.
Qed.
Lemma usual_for2 {S} r c b b' (s : S) : (forall i j s, usual (b i j s) (b' i j s)) -> usual (for2 r c b s) (for2 r c b' s).
Proof. intros H. apply usual_for. intros i s'. apply usual_for. auto. Qed.
Section Usual.
Context {T : Type} (op : lop T).
Let op' (e : T) (y : option T) : res T := final (op e y).
Lemma at_usual x i y : usual (assign_at' op x i y) (assign_at op' x i y).
Proof.
  unfold assign_at', assign_at, op', final. destruct (get_at x i) as [e| | | |]; cbn [eval bind]; try apply usual_refl.
  destruct (op e y) as [z [[]| | | |]]; cbn; split; auto; discriminate.
Qed.
Lemma vec_usual x y : usual (vec_assign' op x y) (vec_assign op' x y).
Proof. unfold vec_assign', vec_assign. destruct (negb _); [apply usual_refl|]. apply usual_for. intros i s. apply usual_eval. intros e. apply at_usual. Qed.
Lemma scale_usual x a : usual (scale_assign' op x a) (scale_assign op' x a).
Proof.
  unfold scale_assign', scale_assign. apply usual_for. intros i s. destruct a as [v|k]; [apply at_usual|].
  destruct (Nat.eqb i k); [apply at_usual|]. apply usual_eval. intros e. apply at_usual.
Qed.
Lemma entry_usual m i j y : usual (assign_entry' op m i j y) (assign_entry op' m i j y).
Proof.
  unfold assign_entry', assign_entry, op', final. destruct (entry m i j) as [e| | | |] eqn:G; cbn [eval bind]; try apply usual_refl.
  assert (B : (offset m i j < length (data m))%nat).
  { unfold entry, read in G. destruct (nth_error (data m) (offset m i j)) eqn:N; [|discriminate]. apply nth_error_Some. congruence. }
  unfold set_entry. destruct (Nat.ltb_spec (offset m i j) (length (data m))); [|lia].
  destruct (op e y) as [z [[]| | | |]]; cbn [andthen done bind eval fst snd]; try (split; auto; discriminate).
Qed.
Lemma mat_usual a b : usual (mat_assign' op a b) (mat_assign op' a b).
Proof. unfold mat_assign', mat_assign. destruct (negb _); [apply usual_refl|]. apply usual_for2. intros i j s. apply usual_eval. intros e. apply entry_usual. Qed.
Lemma mat_scale_usual m s : usual (mat_scale_assign' op m s) (mat_scale_assign op' m s).
Proof.
  unfold mat_scale_assign', mat_scale_assign. apply usual_for2. intros i j d. destruct s as [v|p q]; [apply entry_usual|].
  destruct (_ && _)%bool; [apply entry_usual|]. apply usual_eval. intros e. apply entry_usual.
Qed.
End Usual.
Lemma usual_ve {T} (st : objects T) d p p' : usual p p' -> usual (in_ve st d p) (in_ve st d p').
Proof. intros [H H']. unfold in_ve, usual. cbn [fst snd]. split; auto. intros O. rewrite H'; auto. Qed.
Lemma usual_ma {T} (st : objects T) d p p' : usual p p' -> usual (in_ma st d p) (in_ma st d p').
Proof. intros [H H']. unfold in_ma, usual. cbn [fst snd]. split; auto. intros O. rewrite H'; auto. Qed.
Lemma frac_usual st c : snd (frac_perform st c) = snd (perform Frac_ops st c) /\ (snd (frac_perform st c) = Ok tt -> frac_perform st c = perform Frac_ops st c).
Proof.
  change (usual (frac_perform st c) (perform Frac_ops st c)). unfold frac_perform.
  destruct c; cbn [perform_in perform]; try apply usual_refl.
  - destruct o; apply usual_ve; [exact (vec_usual F_add_assign _ _)|exact (vec_usual F_sub_assign _ _)].
  - apply usual_ve. exact (scale_usual F_mul_assign _ _).
  - apply usual_ve. exact (scale_usual F_div_assign _ _).
  - apply usual_ve. exact (scale_usual F_mul_assign _ _).
  - apply usual_ve. exact (scale_usual F_div_assign _ _).
  - destruct o; apply usual_ma; [exact (mat_usual F_add_assign _ _)|exact (mat_usual F_sub_assign _ _)].
  - apply usual_ma. exact (mat_scale_usual F_mul_assign _ _).
  - apply usual_ma. exact (mat_scale_usual F_div_assign _ _).
  - apply usual_ma. exact (mat_scale_usual F_mul_assign _ _).
  - apply usual_ma. exact (mat_scale_usual F_div_assign _ _).
Qed.
